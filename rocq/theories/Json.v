(** Json.v - grammar/json.go. *)
From Verif Require Export Grammar.

(** grammar/json.go:10-35 (type JSONReader) *)
Definition json_fields : gstruct :=
  [rule_field "Value" "value"; rule_field "Object" "object"; rule_field "Members" "members";
   rule_field "Member" "member"; rule_field "Key" "key"; rule_field "Array" "array";
   rule_field "Elements" "elements"; rule_field "Element" "element"; rule_field "String" "string";
   rule_field "Characters" "characters"; rule_field "Character" "character";
   rule_field "Escape" "escape"; rule_field "Hex" "hex"; rule_field "Number" "number";
   rule_field "Integer" "integer"; rule_field "Fraction" "fraction";
   rule_field "Exponent" "exponent"; rule_field "OneNine" "onenine"; rule_field "Digit" "digit";
   rule_field "Digits" "digits"; rule_field "Sign" "sign"; rule_field "Bool" "bool";
   rule_field "Null" "null"; rule_field "WS" "ws"].
(** Field positions: &g.Value is [RRule jValue] etc. *)
Definition jValue := 0%nat.      Definition jObject := 1%nat.    Definition jMembers := 2%nat.
Definition jMember := 3%nat.     Definition jKey := 4%nat.       Definition jArray := 5%nat.
Definition jElements := 6%nat.   Definition jElement := 7%nat.   Definition jString := 8%nat.
Definition jCharacters := 9%nat. Definition jCharacter := 10%nat. Definition jEscape := 11%nat.
Definition jHex := 12%nat.       Definition jNumber := 13%nat.   Definition jInteger := 14%nat.
Definition jFraction := 15%nat.  Definition jExponent := 16%nat. Definition jOneNine := 17%nat.
Definition jDigit := 18%nat.     Definition jDigits := 19%nat.   Definition jSign := 20%nat.
Definition jBool := 21%nat.      Definition jNull := 22%nat.     Definition jWS := 23%nat.

Definition ar (i : nat) : arg := AReader (RRule i).
(** the holes of a string character: quote and backslash *)
Definition quote_backslash : bytes := [x22; x5c].

(** grammar/json.go:41-65, one definition per assignment *)
Definition json_ws := mk_zom (AReader ws).                                        (* 42 *)
Definition json_null := RLit (lit "null").                                        (* 43 *)
Definition json_bool := mk_any [AStr (lit "true"); AStr (lit "false")].           (* 44 *)
Definition json_sign := mk_opt (AReader (RAnyRune (lit "+-"))).                   (* 45 *)
Definition json_onenine := RBetween 0x31 0x39.                                    (* 46 *)
Definition json_digit := digit.                                                   (* 47 *)
Definition json_digits := mk_many (AReader digit).                                (* 48 *)
Definition json_exponent :=                                                       (* 49 *)
  mk_opt (AReader (mk_seq [AReader (RAnyRune (lit "eE")); ar jSign; ar jDigits])).
Definition json_fraction := mk_opt (AReader (mk_seq [ARune 0x2E; ar jDigits])).   (* 50 *)
Definition json_integer :=                                                        (* 51 *)
  mk_seq [AReader (mk_opt (AReader (RRune 0x2D)));
          AReader (mk_any [AReader (RRune 0x30);
                           AReader (mk_seq [ar jOneNine; AReader (mk_opt (ar jDigits))])])].
Definition json_number := mk_seq [ar jInteger; ar jFraction; ar jExponent].       (* 52 *)
Definition json_hex := hex_digit_reader.                                          (* 53 *)
Definition json_escape :=                                                         (* 54 *)
  mk_any [AReader (RAnyRune (x22 :: lit "\/bfnrt"));
          AReader (mk_seq [ARune 0x75; AReader (RTimes 4 (RRule jHex))])].
Definition json_character :=                                                      (* 55 *)
  mk_any [AReader (RHoley 0x20 MaxRune quote_backslash);
          AReader (mk_seq [ARune 0x5C; ar jEscape])].
Definition json_characters := mk_zom (ar jCharacter).                             (* 56 *)
Definition json_string := mk_seq [ARune 0x22; ar jCharacters; ARune 0x22].        (* 57 *)
Definition json_key := json_string.                                               (* 58 *)
Definition json_element := mk_seq [ar jWS; ar jValue; ar jWS].                    (* 59 *)
Definition json_elements :=                                                       (* 60 *)
  mk_seq [ar jElement; AReader (mk_zom (AReader (mk_seq [AReader (RRune 0x2C); ar jElement])))].
Definition json_array :=                                                          (* 61 *)
  mk_seq [ARune 0x5B; AReader (mk_any [ar jElements; ar jWS]); ARune 0x5D].
Definition json_member := mk_seq [ar jWS; ar jKey; ar jWS; ARune 0x3A; ar jElement]. (* 62 *)
Definition json_members :=                                                        (* 63 *)
  mk_seq [ar jMember; AReader (mk_zom (AReader (mk_seq [ARune 0x2C; ar jMember])))].
Definition json_object :=                                                         (* 64 *)
  mk_seq [ARune 0x7B; AReader (mk_any [ar jMembers; ar jWS]); ARune 0x7D].
Definition json_value :=                                                          (* 65 *)
  mk_any [ar jObject; ar jArray; ar jString; ar jNumber; ar jBool; ar jNull].

Definition json_readers : list reader :=
  [json_value; json_object; json_members; json_member; json_key; json_array; json_elements;
   json_element; json_string; json_characters; json_character; json_escape; json_hex;
   json_number; json_integer; json_fraction; json_exponent; json_onenine; json_digit;
   json_digits; json_sign; json_bool; json_null; json_ws].
(** grammar/json.go:39-67 (JSON) *)
Definition json_env {L : GoLib} : env := build_grammar json_fields json_readers.
(** grammar/json.go:69-79 (JSONReader.Read, What) *)
Definition json : reader := RGrammar (lit "json") (lit "json parse error: ") jElement.
