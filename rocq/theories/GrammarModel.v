(** The grammar of GraphQL documents: include/graphqlservice/internal/Grammar.h, rule by rule.
    The definitions of the rules are transcribed by tools/grammar.py; the PEGTL atoms and combinators they use come
    first. *)
From Verif Require Export Peg.
Local Open Scope list_scope.
Local Open Scope string_scope.

(** One name for each rule of which some selector keeps a node (SyntaxTree.cpp:107-549). Rules that no selector
    keeps leave no trace in the tree, so they are plain definitions below. *)
Inductive rule : Type :=
| R_operation_type | R_list_value | R_object_field_name | R_object_field | R_object_value
| R_variable_value | R_integer_value | R_float_value | R_escaped_unicode | R_escaped_char
| R_string_quote_character | R_block_escape_sequence | R_block_quote_character | R_string_value | R_true_keyword
| R_false_keyword | R_null_keyword | R_enum_value | R_field_name | R_argument_name
| R_argument | R_arguments | R_directive_name | R_directive | R_directives
| R_variable | R_scalar_name | R_named_type | R_list_type | R_nonnull_type
| R_default_value | R_operation_definition | R_fragment_definition | R_schema_definition | R_scalar_type_definition
| R_object_type_definition | R_interface_type_definition | R_union_type_definition | R_enum_type_definition | R_input_object_type_definition
| R_directive_definition | R_schema_extension | R_scalar_type_extension | R_object_type_extension | R_interface_type_extension
| R_union_type_extension | R_enum_type_extension | R_input_object_type_extension | R_description | R_object_name
| R_interface_name | R_union_name | R_enum_name | R_root_operation_definition | R_interface_type
| R_input_field_definition | R_input_fields_definition | R_arguments_definition | R_field_definition | R_fields_definition
| R_union_type | R_enum_value_definition | R_directive_location | R_operation_type_definition | R_variable_name
| R_alias_name | R_alias | R_operation_name | R_fragment_name | R_field
| R_fragment_spread | R_inline_fragment | R_selection_set | R_type_condition.

Definition rule_tag (r : rule) : nat :=
  match r with
  | R_operation_type => 0
  | R_list_value => 1
  | R_object_field_name => 2
  | R_object_field => 3
  | R_object_value => 4
  | R_variable_value => 5
  | R_integer_value => 6
  | R_float_value => 7
  | R_escaped_unicode => 8
  | R_escaped_char => 9
  | R_string_quote_character => 10
  | R_block_escape_sequence => 11
  | R_block_quote_character => 12
  | R_string_value => 13
  | R_true_keyword => 14
  | R_false_keyword => 15
  | R_null_keyword => 16
  | R_enum_value => 17
  | R_field_name => 18
  | R_argument_name => 19
  | R_argument => 20
  | R_arguments => 21
  | R_directive_name => 22
  | R_directive => 23
  | R_directives => 24
  | R_variable => 25
  | R_scalar_name => 26
  | R_named_type => 27
  | R_list_type => 28
  | R_nonnull_type => 29
  | R_default_value => 30
  | R_operation_definition => 31
  | R_fragment_definition => 32
  | R_schema_definition => 33
  | R_scalar_type_definition => 34
  | R_object_type_definition => 35
  | R_interface_type_definition => 36
  | R_union_type_definition => 37
  | R_enum_type_definition => 38
  | R_input_object_type_definition => 39
  | R_directive_definition => 40
  | R_schema_extension => 41
  | R_scalar_type_extension => 42
  | R_object_type_extension => 43
  | R_interface_type_extension => 44
  | R_union_type_extension => 45
  | R_enum_type_extension => 46
  | R_input_object_type_extension => 47
  | R_description => 48
  | R_object_name => 49
  | R_interface_name => 50
  | R_union_name => 51
  | R_enum_name => 52
  | R_root_operation_definition => 53
  | R_interface_type => 54
  | R_input_field_definition => 55
  | R_input_fields_definition => 56
  | R_arguments_definition => 57
  | R_field_definition => 58
  | R_fields_definition => 59
  | R_union_type => 60
  | R_enum_value_definition => 61
  | R_directive_location => 62
  | R_operation_type_definition => 63
  | R_variable_name => 64
  | R_alias_name => 65
  | R_alias => 66
  | R_operation_name => 67
  | R_fragment_name => 68
  | R_field => 69
  | R_fragment_spread => 70
  | R_inline_fragment => 71
  | R_selection_set => 72
  | R_type_condition => 73
  end.
Definition rule_eqb (a b : rule) : bool := Nat.eqb (rule_tag a) (rule_tag b).
Definition all_rules : list rule := [R_operation_type; R_list_value; R_object_field_name; R_object_field; R_object_value; R_variable_value;
  R_integer_value; R_float_value; R_escaped_unicode; R_escaped_char; R_string_quote_character;
  R_block_escape_sequence; R_block_quote_character; R_string_value; R_true_keyword; R_false_keyword; R_null_keyword;
  R_enum_value; R_field_name; R_argument_name; R_argument; R_arguments; R_directive_name; R_directive; R_directives;
  R_variable; R_scalar_name; R_named_type; R_list_type; R_nonnull_type; R_default_value; R_operation_definition;
  R_fragment_definition; R_schema_definition; R_scalar_type_definition; R_object_type_definition;
  R_interface_type_definition; R_union_type_definition; R_enum_type_definition; R_input_object_type_definition;
  R_directive_definition; R_schema_extension; R_scalar_type_extension; R_object_type_extension;
  R_interface_type_extension; R_union_type_extension; R_enum_type_extension; R_input_object_type_extension;
  R_description; R_object_name; R_interface_name; R_union_name; R_enum_name; R_root_operation_definition;
  R_interface_type; R_input_field_definition; R_input_fields_definition; R_arguments_definition; R_field_definition;
  R_fields_definition; R_union_type; R_enum_value_definition; R_directive_location; R_operation_type_definition;
  R_variable_name; R_alias_name; R_alias; R_operation_name; R_fragment_name; R_field; R_fragment_spread;
  R_inline_fragment; R_selection_set; R_type_condition].

Lemma all_rules_complete r : nth_error all_rules (rule_tag r) = Some r.
Proof. destruct r; reflexivity. Qed.

Lemma rule_eqb_spec a b : reflect (a = b) (rule_eqb a b).
Proof.
  unfold rule_eqb. destruct (Nat.eqb_spec (rule_tag a) (rule_tag b)) as [E|E]; constructor; [|congruence].
  pose proof (all_rules_complete a) as A. rewrite E, all_rules_complete in A. injection A as ->. reflexivity.
Qed.

Notation ex := (re rule).
Notation "a >> b" := (Seq a b) (at level 61, right associativity).
Notation "a </> b" := (Sor a b) (at level 62, right associativity).

(** The error messages of ast_control, all but seven of which have this form (SyntaxTree.cpp:563-733). *)
Definition expected (what : string) : string := ("Expected http://spec.graphql.org/June2018/#" ++ what)%string.

(** PEGTL atoms. *)
Definition one (l : list ascii) : ex := Chr (fun c => existsb (Ascii.eqb c) l).           (* ascii::one<...> *)
Definition in_range (a b c : ascii) : bool := N.leb (N_of_ascii a) (N_of_ascii c) && N.leb (N_of_ascii c) (N_of_ascii b).
Definition range (a b : ascii) : ex := Chr (in_range a b).                                 (* ascii::range<a, b> *)
Definition is_digit (c : ascii) : bool := in_range "0" "9" c.
Definition is_xdigit (c : ascii) : bool := in_range "0" "9" c || in_range "a" "f" c || in_range "A" "F" c.
Definition is_alpha_ (c : ascii) : bool := in_range "a" "z" c || in_range "A" "Z" c || Ascii.eqb c "_".
Definition is_ident (c : ascii) : bool := is_alpha_ c || is_digit c.
Definition p_digit : ex := Chr is_digit.                                                   (* ascii::digit *)
Definition p_xdigit : ex := Chr is_xdigit.                                                 (* ascii::xdigit *)
Definition lf : ascii := ascii_of_nat 10.
Definition cr : ascii := ascii_of_nat 13.
Definition p_space : ex := one [" "%char; lf; cr; ascii_of_nat 9; ascii_of_nat 11; ascii_of_nat 12]. (* ascii::space *)
Definition p_identifier : ex := Seq (Chr is_alpha_) (Star (Chr is_ident)).                 (* ascii::identifier *)
Definition p_ellipsis : ex := Str ["."%char; "."%char; "."%char].                          (* ascii::ellipsis *)
Definition p_bom : ex := Utf8 65279 65279.                                                 (* utf8::bom *)
Definition p_eol : ex := Sor (Str [lf]) (Str [cr; lf]).                                    (* ascii::eol, lf_crlf *)
(** TAO_PEGTL_KEYWORD(text): the text, not followed by another letter, digit or underscore. *)
Definition keyword (w : string) : ex := Seq (Str (list_ascii_of_string w)) (NotAt (Chr is_ident)).

(** PEGTL combinators in terms of the basic ones. *)
Definition opt (a : ex) : ex := Sor a Eps.
Definition plus (a : ex) : ex := Seq a (Star a).
Definition list_of (a sep : ex) : ex := Seq a (Star (Seq sep a)).
(** until<eolf>: bytes up to and including the end of the line, or up to the end of the input. *)
Definition until_eolf : ex := Seq (Star (Seq (NotAt (Sor Eof p_eol)) (Chr (fun _ => true)))) (Sor Eof p_eol).

(** ** The rules. *)
(** Grammar.h:63-65 *)
Definition g_source_character : ex := one [ascii_of_nat 9; ascii_of_nat 10; ascii_of_nat 13] </> Utf8 32 65535.
(** Grammar.h:68-70 *)
Definition g_comment : ex := one ["#"%char] >> until_eolf.
(** Grammar.h:73-75 *)
Definition g_ignored : ex := p_space </> one [","%char] </> g_comment.
(** Grammar.h:78-80 *)
Definition g_name : ex := p_identifier.
(** Grammar.h:82-84 *)
Definition g_variable_name_content : ex := g_name.
(** Grammar.h:87-89 *)
Definition g_variable_name : ex := one ["$"%char] >> Must (expected "Variable") g_variable_name_content.
(** Grammar.h:92-94 *)
Definition g_null_keyword : ex := keyword "null".
(** Grammar.h:96-98 *)
Definition g_quote_token : ex := one [""""%char].
(** Grammar.h:100-102 *)
Definition g_backslash_token : ex := one ["\"%char].
(** Grammar.h:104-106 *)
Definition g_escaped_unicode_codepoint : ex := p_xdigit >> p_xdigit >> p_xdigit >> p_xdigit.
(** Grammar.h:108-110 *)
Definition g_escaped_unicode_content : ex := list_of g_escaped_unicode_codepoint (g_backslash_token >> one
  ["u"%char]).
(** Grammar.h:113-115 *)
Definition g_escaped_unicode : ex := one ["u"%char] >> Must (expected "EscapedUnicode") g_escaped_unicode_content.
(** Grammar.h:118-120 *)
Definition g_escaped_char : ex := one [""""%char; "\"%char; "/"%char; "b"%char; "f"%char; "n"%char; "r"%char;
  "t"%char].
(** Grammar.h:122-124 *)
Definition g_string_escape_sequence_content : ex := Ref R_escaped_unicode </> Ref R_escaped_char.
(** Grammar.h:126-128 *)
Definition g_string_escape_sequence : ex := g_backslash_token >> Must (expected "EscapedCharacter")
  g_string_escape_sequence_content.
(** Grammar.h:130-133 *)
Definition g_string_quote_character : ex := plus (NotAt g_backslash_token >> NotAt g_quote_token >> NotAt p_eol >>
  g_source_character).
(** Grammar.h:135-138 *)
Definition g_string_quote_content : ex := Star (g_string_escape_sequence </> Ref R_string_quote_character) >> Must
  "Expected """ g_quote_token.
(** Grammar.h:141-143 *)
Definition g_string_quote : ex := g_quote_token >> Must (expected "StringCharacter") g_string_quote_content.
(** Grammar.h:145-147 *)
Definition g_block_quote_token : ex := g_quote_token >> g_quote_token >> g_quote_token.
(** Grammar.h:149-151 *)
Definition g_block_escape_sequence : ex := g_backslash_token >> g_block_quote_token.
(** Grammar.h:153-156 *)
Definition g_block_quote_character : ex := plus (NotAt g_block_quote_token >> NotAt (Ref R_block_escape_sequence) >>
  g_source_character).
(** Grammar.h:158-161 *)
Definition g_block_quote_content : ex := Star (Ref R_block_escape_sequence </> Ref R_block_quote_character) >> Must
  "Expected """"""" g_block_quote_token.
(** Grammar.h:164-166 *)
Definition g_block_quote : ex := g_block_quote_token >> Must (expected "BlockStringCharacter")
  g_block_quote_content.
(** Grammar.h:169-171 *)
Definition g_string_value : ex := g_block_quote </> g_string_quote.
(** Grammar.h:174-176 *)
Definition g_nonzero_digit : ex := range "1"%char "9"%char.
(** Grammar.h:178-180 *)
Definition g_zero_digit : ex := one ["0"%char].
(** Grammar.h:183-185 *)
Definition g_negative_sign : ex := one ["-"%char].
(** Grammar.h:188-190 *)
Definition g_integer_part : ex := opt g_negative_sign >> (g_zero_digit </> (g_nonzero_digit >> Star p_digit)).
(** Grammar.h:193-195 *)
Definition g_integer_value : ex := g_integer_part.
(** Grammar.h:197-199 *)
Definition g_fractional_part_content : ex := plus p_digit.
(** Grammar.h:202-204 *)
Definition g_fractional_part : ex := one ["."%char] >> Must (expected "FractionalPart") g_fractional_part_content.
(** Grammar.h:207-209 *)
Definition g_exponent_indicator : ex := one ["e"%char; "E"%char].
(** Grammar.h:212-214 *)
Definition g_sign : ex := one ["+"%char; "-"%char].
(** Grammar.h:216-218 *)
Definition g_exponent_part_content : ex := opt g_sign >> plus p_digit.
(** Grammar.h:221-223 *)
Definition g_exponent_part : ex := g_exponent_indicator >> Must (expected "ExponentPart") g_exponent_part_content.
(** Grammar.h:226-229 *)
Definition g_float_value : ex := g_integer_part >> (g_fractional_part </> g_exponent_part </> (g_fractional_part >>
  g_exponent_part)).
(** Grammar.h:231-233 *)
Definition g_true_keyword : ex := keyword "true".
(** Grammar.h:235-237 *)
Definition g_false_keyword : ex := keyword "false".
(** Grammar.h:240-242 *)
Definition g_bool_value : ex := Ref R_true_keyword </> Ref R_false_keyword.
(** Grammar.h:245-247 *)
Definition g_enum_value : ex := NotAt (Ref R_true_keyword >> Ref R_false_keyword >> Ref R_null_keyword) >> g_name.
(** Grammar.h:250-254 *)
Definition g_operation_type : ex := keyword "query" </> keyword "mutation" </> keyword "subscription".
(** Grammar.h:256-258 *)
Definition g_alias_name : ex := g_name.
(** Grammar.h:261-263 *)
Definition g_alias : ex := Ref R_alias_name >> Star g_ignored >> one [":"%char].
(** Grammar.h:265-267 *)
Definition g_argument_name : ex := g_name.
(** Grammar.h:329-333 *)
Definition g_input_value_content : ex := Ref R_list_value </> Ref R_object_value </> Ref R_variable_value </> Ref
  R_float_value </> Ref R_integer_value </> Ref R_string_value </> g_bool_value </> Ref R_null_keyword </> Ref
  R_enum_value.
(** Grammar.h:336-338 *)
Definition g_input_value : ex := Must (expected "Value") g_input_value_content.
(** Grammar.h:271-273 *)
Definition g_argument_content : ex := Star g_ignored >> one [":"%char] >> Star g_ignored >> g_input_value.
(** Grammar.h:276-278 *)
Definition g_argument : ex := Ref R_argument_name >> Must (expected "Argument") g_argument_content.
(** Grammar.h:280-283 *)
Definition g_arguments_content : ex := Star g_ignored >> list_of (Ref R_argument) (plus g_ignored) >> Star g_ignored
  >> Must "Expected )" (one [")"%char]).
(** Grammar.h:286-288 *)
Definition g_arguments : ex := one ["("%char] >> Must (expected "Arguments") g_arguments_content.
(** Grammar.h:340-342 *)
Definition g_list_entry : ex := g_input_value_content.
(** Grammar.h:292-295 *)
Definition g_list_value_content : ex := Star g_ignored >> opt (list_of g_list_entry (plus g_ignored)) >> Star
  g_ignored >> Must "Expected ]" (one ["]"%char]).
(** Grammar.h:298-300 *)
Definition g_list_value : ex := one ["["%char] >> Must (expected "ListValue") g_list_value_content.
(** Grammar.h:302-304 *)
Definition g_object_field_name : ex := g_name.
(** Grammar.h:306-308 *)
Definition g_object_field_content : ex := Star g_ignored >> one [":"%char] >> Star g_ignored >> g_input_value.
(** Grammar.h:311-313 *)
Definition g_object_field : ex := Ref R_object_field_name >> Must (expected "ObjectField") g_object_field_content.
(** Grammar.h:315-318 *)
Definition g_object_value_content : ex := Star g_ignored >> opt (list_of (Ref R_object_field) (plus g_ignored)) >>
  Star g_ignored >> Must "Expected }" (one ["}"%char]).
(** Grammar.h:321-323 *)
Definition g_object_value : ex := one ["{"%char] >> Must (expected "ObjectValue") g_object_value_content.
(** Grammar.h:325-327 *)
Definition g_variable_value : ex := g_variable_name.
(** Grammar.h:344-346 *)
Definition g_default_value_content : ex := Star g_ignored >> g_input_value.
(** Grammar.h:349-351 *)
Definition g_default_value : ex := one ["="%char] >> Must (expected "DefaultValue") g_default_value_content.
(** Grammar.h:354-356 *)
Definition g_named_type : ex := g_name.
(** Grammar.h:361-364 *)
Definition g_list_type_content : ex := Star g_ignored >> (Ref R_nonnull_type </> Ref R_list_type </> Ref
  R_named_type) >> Star g_ignored >> Must "Expected ]" (one ["]"%char]).
(** Grammar.h:367-369 *)
Definition g_list_type : ex := one ["["%char] >> Must (expected "ListType") g_list_type_content.
(** Grammar.h:372-374 *)
Definition g_nonnull_type : ex := (Ref R_list_type </> Ref R_named_type) >> Star g_ignored >> one ["!"%char].
(** Grammar.h:376-378 *)
Definition g_type_name_content : ex := Ref R_nonnull_type </> Ref R_list_type </> Ref R_named_type.
(** Grammar.h:381-383 *)
Definition g_type_name : ex := Must (expected "Type") g_type_name_content.
(** Grammar.h:385-388 *)
Definition g_variable_content : ex := Star g_ignored >> one [":"%char] >> Star g_ignored >> g_type_name >> opt (Star
  g_ignored >> Ref R_default_value).
(** Grammar.h:391-393 *)
Definition g_variable : ex := Ref R_variable_name >> Must (expected "VariableDefinition") g_variable_content.
(** Grammar.h:395-398 *)
Definition g_variable_definitions_content : ex := Star g_ignored >> list_of (Ref R_variable) (plus g_ignored) >>
  Star g_ignored >> Must "Expected )" (one [")"%char]).
(** Grammar.h:401-403 *)
Definition g_variable_definitions : ex := one ["("%char] >> Must (expected "VariableDefinitions")
  g_variable_definitions_content.
(** Grammar.h:405-407 *)
Definition g_directive_name : ex := g_name.
(** Grammar.h:409-411 *)
Definition g_directive_content : ex := Ref R_directive_name >> opt (Star g_ignored >> Ref R_arguments).
(** Grammar.h:414-416 *)
Definition g_directive : ex := one ["@"%char] >> Must (expected "Directive") g_directive_content.
(** Grammar.h:419-421 *)
Definition g_directives : ex := list_of (Ref R_directive) (plus g_ignored).
(** Grammar.h:425-427 *)
Definition g_field_name : ex := g_name.
(** Grammar.h:429-431 *)
Definition g_field_start : ex := opt (Ref R_alias >> Star g_ignored) >> Ref R_field_name.
(** Grammar.h:433-435 *)
Definition g_field_arguments : ex := opt (Star g_ignored >> Ref R_arguments).
(** Grammar.h:437-439 *)
Definition g_field_directives : ex := Star g_ignored >> Ref R_directives.
(** Grammar.h:441-443 *)
Definition g_field_selection_set : ex := Star g_ignored >> Ref R_selection_set.
(** Grammar.h:445-449 *)
Definition g_field_content : ex := (g_field_arguments >> opt g_field_directives >> g_field_selection_set) </>
  (g_field_arguments >> g_field_directives) </> g_field_arguments.
(** Grammar.h:452-454 *)
Definition g_field : ex := g_field_start >> Must (expected "Field") g_field_content.
(** Grammar.h:456-458 *)
Definition g_on_keyword : ex := keyword "on".
(** Grammar.h:461-463 *)
Definition g_fragment_name : ex := NotAt g_on_keyword >> g_name.
(** Grammar.h:465-467 *)
Definition g_fragment_token : ex := p_ellipsis.
(** Grammar.h:470-472 *)
Definition g_fragment_spread : ex := Star g_ignored >> Ref R_fragment_name >> opt (Star g_ignored >> Ref
  R_directives).
(** Grammar.h:474-476 *)
Definition g_type_condition_content : ex := plus g_ignored >> Ref R_named_type.
(** Grammar.h:479-481 *)
Definition g_type_condition : ex := g_on_keyword >> Must (expected "TypeCondition") g_type_condition_content.
(** Grammar.h:484-488 *)
Definition g_inline_fragment : ex := opt (Star g_ignored >> Ref R_type_condition) >> opt (Star g_ignored >> Ref
  R_directives) >> Star g_ignored >> Ref R_selection_set.
(** Grammar.h:490-492 *)
Definition g_fragement_spread_or_inline_fragment_content : ex := Ref R_fragment_spread </> Ref R_inline_fragment.
(** Grammar.h:494-497 *)
Definition g_fragement_spread_or_inline_fragment : ex := g_fragment_token >> Must
  "Expected http://spec.graphql.org/June2018/#FragmentSpread or http://spec.graphql.org/June2018/#InlineFragment"
  g_fragement_spread_or_inline_fragment_content.
(** Grammar.h:500-502 *)
Definition g_selection : ex := Ref R_field </> g_fragement_spread_or_inline_fragment.
(** Grammar.h:504-507 *)
Definition g_selection_set_content : ex := Star g_ignored >> list_of g_selection (plus g_ignored) >> Star g_ignored
  >> Must "Expected }" (one ["}"%char]).
(** Grammar.h:510-512 *)
Definition g_selection_set : ex := one ["{"%char] >> Must (expected "SelectionSet") g_selection_set_content.
(** Grammar.h:514-516 *)
Definition g_operation_name : ex := g_name.
(** Grammar.h:518-522 *)
Definition g_operation_definition_operation_type_content : ex := opt (plus g_ignored >> Ref R_operation_name) >> opt
  (Star g_ignored >> g_variable_definitions) >> opt (Star g_ignored >> Ref R_directives) >> Star g_ignored >> Ref
  R_selection_set.
(** Grammar.h:525-528 *)
Definition g_operation_definition : ex := (Ref R_operation_type >> Must (expected "OperationDefinition")
  g_operation_definition_operation_type_content) </> Ref R_selection_set.
(** Grammar.h:530-534 *)
Definition g_fragment_definition_content : ex := plus g_ignored >> Ref R_fragment_name >> plus g_ignored >> Ref
  R_type_condition >> opt (Star g_ignored >> Ref R_directives) >> Star g_ignored >> Ref R_selection_set.
(** Grammar.h:537-539 *)
Definition g_fragment_definition : ex := keyword "fragment" >> Must (expected "FragmentDefinition")
  g_fragment_definition_content.
(** Grammar.h:542-544 *)
Definition g_executable_definition : ex := Ref R_fragment_definition </> Ref R_operation_definition.
(** Grammar.h:546-548 *)
Definition g_schema_keyword : ex := keyword "schema".
(** Grammar.h:550-552 *)
Definition g_root_operation_definition_content : ex := Star g_ignored >> one [":"%char] >> Star g_ignored >> Ref
  R_named_type.
(** Grammar.h:555-557 *)
Definition g_root_operation_definition : ex := Ref R_operation_type >> Must (expected "RootOperationTypeDefinition")
  g_root_operation_definition_content.
(** Grammar.h:559-563 *)
Definition g_schema_definition_content : ex := opt (Star g_ignored >> Ref R_directives) >> Star g_ignored >> one
  ["{"%char] >> Star g_ignored >> list_of (Ref R_root_operation_definition) (plus g_ignored) >> Star g_ignored >>
  Must "Expected }" (one ["}"%char]).
(** Grammar.h:566-568 *)
Definition g_schema_definition : ex := g_schema_keyword >> Must (expected "SchemaDefinition")
  g_schema_definition_content.
(** Grammar.h:570-572 *)
Definition g_scalar_keyword : ex := keyword "scalar".
(** Grammar.h:575-577 *)
Definition g_description : ex := g_string_value.
(** Grammar.h:579-581 *)
Definition g_scalar_name : ex := g_name.
(** Grammar.h:583-585 *)
Definition g_scalar_type_definition_start : ex := opt (Ref R_description >> Star g_ignored) >> g_scalar_keyword.
(** Grammar.h:587-590 *)
Definition g_scalar_type_definition_content : ex := plus g_ignored >> Ref R_scalar_name >> opt (Star g_ignored >>
  Ref R_directives).
(** Grammar.h:593-596 *)
Definition g_scalar_type_definition : ex := g_scalar_type_definition_start >> Must (expected "ScalarTypeDefinition")
  g_scalar_type_definition_content.
(** Grammar.h:598-600 *)
Definition g_type_keyword : ex := keyword "type".
(** Grammar.h:604-606 *)
Definition g_arguments_definition_start : ex := one ["("%char].
(** Grammar.h:608-611 *)
Definition g_arguments_definition_content : ex := Star g_ignored >> list_of (Ref R_input_field_definition) (plus
  g_ignored) >> Star g_ignored >> Must "Expected )" (one [")"%char]).
(** Grammar.h:614-616 *)
Definition g_arguments_definition : ex := g_arguments_definition_start >> Must (expected "ArgumentsDefinition")
  g_arguments_definition_content.
(** Grammar.h:618-620 *)
Definition g_field_definition_start : ex := opt (Ref R_description >> Star g_ignored) >> Ref R_field_name.
(** Grammar.h:622-626 *)
Definition g_field_definition_content : ex := opt (Star g_ignored >> Ref R_arguments_definition) >> Star g_ignored
  >> one [":"%char] >> Star g_ignored >> g_type_name >> opt (Star g_ignored >> Ref R_directives).
(** Grammar.h:629-631 *)
Definition g_field_definition : ex := g_field_definition_start >> Must (expected "FieldDefinition")
  g_field_definition_content.
(** Grammar.h:633-636 *)
Definition g_fields_definition_content : ex := Star g_ignored >> list_of (Ref R_field_definition) (plus g_ignored)
  >> Star g_ignored >> Must "Expected }" (one ["}"%char]).
(** Grammar.h:639-641 *)
Definition g_fields_definition : ex := one ["{"%char] >> Must (expected "FieldsDefinition")
  g_fields_definition_content.
(** Grammar.h:643-645 *)
Definition g_interface_type : ex := g_named_type.
(** Grammar.h:647-651 *)
Definition g_implements_interfaces_content : ex := opt (Star g_ignored >> one ["&"%char]) >> Star g_ignored >>
  list_of (Ref R_interface_type) (Star g_ignored >> one ["&"%char] >> Star g_ignored).
(** Grammar.h:654-657 *)
Definition g_implements_interfaces : ex := keyword "implements" >> Must (expected "ImplementsInterfaces")
  g_implements_interfaces_content.
(** Grammar.h:659-661 *)
Definition g_object_name : ex := g_name.
(** Grammar.h:663-665 *)
Definition g_object_type_definition_start : ex := opt (Ref R_description >> Star g_ignored) >> g_type_keyword.
(** Grammar.h:667-669 *)
Definition g_object_type_definition_object_name : ex := plus g_ignored >> Ref R_object_name.
(** Grammar.h:671-673 *)
Definition g_object_type_definition_implements_interfaces : ex := opt (plus g_ignored >> g_implements_interfaces).
(** Grammar.h:675-677 *)
Definition g_object_type_definition_directives : ex := Star g_ignored >> Ref R_directives.
(** Grammar.h:679-681 *)
Definition g_object_type_definition_fields_definition : ex := Star g_ignored >> Ref R_fields_definition.
(** Grammar.h:683-690 *)
Definition g_object_type_definition_content : ex := g_object_type_definition_object_name >>
  ((g_object_type_definition_implements_interfaces >> opt g_object_type_definition_directives >>
  g_object_type_definition_fields_definition) </> (g_object_type_definition_implements_interfaces >>
  g_object_type_definition_directives) </> g_object_type_definition_implements_interfaces).
(** Grammar.h:693-696 *)
Definition g_object_type_definition : ex := g_object_type_definition_start >> Must (expected "ObjectTypeDefinition")
  g_object_type_definition_content.
(** Grammar.h:698-700 *)
Definition g_interface_keyword : ex := keyword "interface".
(** Grammar.h:702-704 *)
Definition g_interface_name : ex := g_name.
(** Grammar.h:706-708 *)
Definition g_interface_type_definition_start : ex := opt (Ref R_description >> Star g_ignored) >>
  g_interface_keyword.
(** Grammar.h:710-712 *)
Definition g_interface_type_definition_interface_name : ex := plus g_ignored >> Ref R_interface_name.
(** Grammar.h:714-716 *)
Definition g_interface_type_definition_directives : ex := opt (Star g_ignored >> Ref R_directives).
(** Grammar.h:718-720 *)
Definition g_interface_type_definition_fields_definition : ex := Star g_ignored >> Ref R_fields_definition.
(** Grammar.h:722-728 *)
Definition g_interface_type_definition_content : ex := g_interface_type_definition_interface_name >>
  ((g_interface_type_definition_directives >> g_interface_type_definition_fields_definition) </>
  g_interface_type_definition_directives).
(** Grammar.h:731-734 *)
Definition g_interface_type_definition : ex := g_interface_type_definition_start >> Must (expected
  "InterfaceTypeDefinition") g_interface_type_definition_content.
(** Grammar.h:736-738 *)
Definition g_union_keyword : ex := keyword "union".
(** Grammar.h:740-742 *)
Definition g_union_name : ex := g_name.
(** Grammar.h:744-746 *)
Definition g_union_type : ex := g_named_type.
(** Grammar.h:748-750 *)
Definition g_union_member_types_start : ex := one ["="%char].
(** Grammar.h:752-756 *)
Definition g_union_member_types_content : ex := opt (Star g_ignored >> one ["|"%char]) >> Star g_ignored >> list_of
  (Ref R_union_type) (Star g_ignored >> one ["|"%char] >> Star g_ignored).
(** Grammar.h:759-761 *)
Definition g_union_member_types : ex := g_union_member_types_start >> Must (expected "UnionMemberTypes")
  g_union_member_types_content.
(** Grammar.h:763-765 *)
Definition g_union_type_definition_start : ex := opt (Ref R_description >> Star g_ignored) >> g_union_keyword.
(** Grammar.h:767-769 *)
Definition g_union_type_definition_directives : ex := opt (Star g_ignored >> Ref R_directives).
(** Grammar.h:771-776 *)
Definition g_union_type_definition_content : ex := plus g_ignored >> Ref R_union_name >>
  ((g_union_type_definition_directives >> (Star g_ignored >> g_union_member_types)) </>
  g_union_type_definition_directives).
(** Grammar.h:779-781 *)
Definition g_union_type_definition : ex := g_union_type_definition_start >> Must (expected "UnionTypeDefinition")
  g_union_type_definition_content.
(** Grammar.h:783-785 *)
Definition g_enum_keyword : ex := keyword "enum".
(** Grammar.h:787-789 *)
Definition g_enum_name : ex := g_name.
(** Grammar.h:791-793 *)
Definition g_enum_value_definition_start : ex := opt (Ref R_description >> Star g_ignored) >> Ref R_enum_value.
(** Grammar.h:795-797 *)
Definition g_enum_value_definition_content : ex := opt (Star g_ignored >> Ref R_directives).
(** Grammar.h:800-802 *)
Definition g_enum_value_definition : ex := g_enum_value_definition_start >> Must (expected "EnumValueDefinition")
  g_enum_value_definition_content.
(** Grammar.h:804-806 *)
Definition g_enum_values_definition_start : ex := one ["{"%char].
(** Grammar.h:808-811 *)
Definition g_enum_values_definition_content : ex := Star g_ignored >> list_of (Ref R_enum_value_definition) (plus
  g_ignored) >> Star g_ignored >> Must "Expected }" (one ["}"%char]).
(** Grammar.h:814-817 *)
Definition g_enum_values_definition : ex := g_enum_values_definition_start >> Must (expected "EnumValuesDefinition")
  g_enum_values_definition_content.
(** Grammar.h:819-821 *)
Definition g_enum_type_definition_start : ex := opt (Ref R_description >> Star g_ignored) >> g_enum_keyword.
(** Grammar.h:823-825 *)
Definition g_enum_type_definition_name : ex := plus g_ignored >> Ref R_enum_name.
(** Grammar.h:827-829 *)
Definition g_enum_type_definition_directives : ex := opt (Star g_ignored >> Ref R_directives).
(** Grammar.h:831-833 *)
Definition g_enum_type_definition_enum_values_definition : ex := Star g_ignored >> g_enum_values_definition.
(** Grammar.h:835-840 *)
Definition g_enum_type_definition_content : ex := g_enum_type_definition_name >> ((g_enum_type_definition_directives
  >> g_enum_type_definition_enum_values_definition) </> g_enum_type_definition_directives).
(** Grammar.h:843-845 *)
Definition g_enum_type_definition : ex := g_enum_type_definition_start >> Must (expected "EnumTypeDefinition")
  g_enum_type_definition_content.
(** Grammar.h:847-849 *)
Definition g_input_keyword : ex := keyword "input".
(** Grammar.h:851-853 *)
Definition g_input_field_definition_start : ex := opt (Ref R_description >> Star g_ignored) >> Ref R_argument_name.
(** Grammar.h:855-857 *)
Definition g_input_field_definition_type_name : ex := Star g_ignored >> one [":"%char] >> Star g_ignored >>
  g_type_name.
(** Grammar.h:859-861 *)
Definition g_input_field_definition_default_value : ex := opt (Star g_ignored >> Ref R_default_value).
(** Grammar.h:863-865 *)
Definition g_input_field_definition_directives : ex := Star g_ignored >> Ref R_directives.
(** Grammar.h:867-872 *)
Definition g_input_field_definition_content : ex := g_input_field_definition_type_name >>
  ((g_input_field_definition_default_value >> g_input_field_definition_directives) </>
  g_input_field_definition_default_value).
(** Grammar.h:875-878 *)
Definition g_input_field_definition : ex := g_input_field_definition_start >> Must (expected "InputValueDefinition")
  g_input_field_definition_content.
(** Grammar.h:880-882 *)
Definition g_input_fields_definition_start : ex := one ["{"%char].
(** Grammar.h:884-887 *)
Definition g_input_fields_definition_content : ex := Star g_ignored >> list_of (Ref R_input_field_definition) (plus
  g_ignored) >> Star g_ignored >> Must "Expected }" (one ["}"%char]).
(** Grammar.h:890-893 *)
Definition g_input_fields_definition : ex := g_input_fields_definition_start >> Must (expected
  "InputFieldsDefinition") g_input_fields_definition_content.
(** Grammar.h:895-897 *)
Definition g_input_object_type_definition_start : ex := opt (Ref R_description >> Star g_ignored) >>
  g_input_keyword.
(** Grammar.h:899-901 *)
Definition g_input_object_type_definition_object_name : ex := plus g_ignored >> Ref R_object_name.
(** Grammar.h:903-905 *)
Definition g_input_object_type_definition_directives : ex := opt (Star g_ignored >> Ref R_directives).
(** Grammar.h:907-909 *)
Definition g_input_object_type_definition_fields_definition : ex := Star g_ignored >> Ref R_input_fields_definition.
(** Grammar.h:911-917 *)
Definition g_input_object_type_definition_content : ex := g_input_object_type_definition_object_name >>
  ((g_input_object_type_definition_directives >> g_input_object_type_definition_fields_definition) </>
  g_input_object_type_definition_directives).
(** Grammar.h:920-923 *)
Definition g_input_object_type_definition : ex := g_input_object_type_definition_start >> Must (expected
  "InputObjectTypeDefinition") g_input_object_type_definition_content.
(** Grammar.h:926-930 *)
Definition g_type_definition : ex := Ref R_scalar_type_definition </> Ref R_object_type_definition </> Ref
  R_interface_type_definition </> Ref R_union_type_definition </> Ref R_enum_type_definition </> Ref
  R_input_object_type_definition.
(** Grammar.h:933-939 *)
Definition g_executable_directive_location : ex := keyword "QUERY" </> keyword "MUTATION" </> keyword "SUBSCRIPTION"
  </> keyword "FIELD" </> keyword "FRAGMENT_DEFINITION" </> keyword "FRAGMENT_SPREAD" </> keyword "INLINE_FRAGMENT".
(** Grammar.h:942-949 *)
Definition g_type_system_directive_location : ex := keyword "SCHEMA" </> keyword "SCALAR" </> keyword "OBJECT" </>
  keyword "FIELD_DEFINITION" </> keyword "ARGUMENT_DEFINITION" </> keyword "INTERFACE" </> keyword "UNION" </>
  keyword "ENUM" </> keyword "ENUM_VALUE" </> keyword "INPUT_OBJECT" </> keyword "INPUT_FIELD_DEFINITION".
(** Grammar.h:952-954 *)
Definition g_directive_location : ex := g_executable_directive_location </> g_type_system_directive_location.
(** Grammar.h:957-961 *)
Definition g_directive_locations : ex := opt (one ["|"%char] >> Star g_ignored) >> list_of (Ref
  R_directive_location) (Star g_ignored >> one ["|"%char] >> Star g_ignored).
(** Grammar.h:963-966 *)
Definition g_directive_definition_start : ex := opt (Ref R_description >> Star g_ignored) >> keyword "directive".
(** Grammar.h:968-972 *)
Definition g_directive_definition_content : ex := Star g_ignored >> one ["@"%char] >> Ref R_directive_name >> opt
  (Star g_ignored >> Ref R_arguments_definition) >> plus g_ignored >> g_on_keyword >> plus g_ignored >>
  g_directive_locations.
(** Grammar.h:975-977 *)
Definition g_directive_definition : ex := g_directive_definition_start >> Must (expected "DirectiveDefinition")
  g_directive_definition_content.
(** Grammar.h:980-982 *)
Definition g_type_system_definition : ex := Ref R_schema_definition </> g_type_definition </> Ref
  R_directive_definition.
(** Grammar.h:984-986 *)
Definition g_extend_keyword : ex := keyword "extend".
(** Grammar.h:989-991 *)
Definition g_operation_type_definition : ex := g_root_operation_definition.
(** Grammar.h:993-995 *)
Definition g_schema_extension_start : ex := g_extend_keyword >> plus g_ignored >> g_schema_keyword.
(** Grammar.h:997-1001 *)
Definition g_schema_extension_operation_type_definitions : ex := one ["{"%char] >> Star g_ignored >> list_of (Ref
  R_operation_type_definition) (plus g_ignored) >> Star g_ignored >> Must "Expected }" (one ["}"%char]).
(** Grammar.h:1003-1007 *)
Definition g_schema_extension_content : ex := Star g_ignored >> ((opt (Ref R_directives) >>
  g_schema_extension_operation_type_definitions) </> Ref R_directives).
(** Grammar.h:1010-1012 *)
Definition g_schema_extension : ex := g_schema_extension_start >> Must (expected "SchemaExtension")
  g_schema_extension_content.
(** Grammar.h:1014-1016 *)
Definition g_scalar_type_extension_start : ex := g_extend_keyword >> plus g_ignored >> g_scalar_keyword.
(** Grammar.h:1018-1020 *)
Definition g_scalar_type_extension_content : ex := Star g_ignored >> Ref R_scalar_name >> Star g_ignored >> Ref
  R_directives.
(** Grammar.h:1023-1025 *)
Definition g_scalar_type_extension : ex := g_scalar_type_extension_start >> Must (expected "ScalarTypeExtension")
  g_scalar_type_extension_content.
(** Grammar.h:1027-1029 *)
Definition g_object_type_extension_start : ex := g_extend_keyword >> plus g_ignored >> g_type_keyword.
(** Grammar.h:1031-1033 *)
Definition g_object_type_extension_implements_interfaces : ex := plus g_ignored >> g_implements_interfaces.
(** Grammar.h:1035-1037 *)
Definition g_object_type_extension_directives : ex := Star g_ignored >> Ref R_directives.
(** Grammar.h:1039-1041 *)
Definition g_object_type_extension_fields_definition : ex := Star g_ignored >> Ref R_fields_definition.
(** Grammar.h:1043-1051 *)
Definition g_object_type_extension_content : ex := plus g_ignored >> Ref R_object_name >> ((opt
  g_object_type_extension_implements_interfaces >> opt g_object_type_extension_directives >>
  g_object_type_extension_fields_definition) </> (opt g_object_type_extension_implements_interfaces >>
  g_object_type_extension_directives) </> g_object_type_extension_implements_interfaces).
(** Grammar.h:1054-1056 *)
Definition g_object_type_extension : ex := g_object_type_extension_start >> Must (expected "ObjectTypeExtension")
  g_object_type_extension_content.
(** Grammar.h:1058-1060 *)
Definition g_interface_type_extension_start : ex := g_extend_keyword >> plus g_ignored >> g_interface_keyword.
(** Grammar.h:1062-1066 *)
Definition g_interface_type_extension_content : ex := plus g_ignored >> Ref R_interface_name >> Star g_ignored >>
  ((opt (Ref R_directives >> Star g_ignored) >> Ref R_fields_definition) </> Ref R_directives).
(** Grammar.h:1069-1072 *)
Definition g_interface_type_extension : ex := g_interface_type_extension_start >> Must (expected
  "InterfaceTypeExtension") g_interface_type_extension_content.
(** Grammar.h:1074-1076 *)
Definition g_union_type_extension_start : ex := g_extend_keyword >> plus g_ignored >> g_union_keyword.
(** Grammar.h:1078-1082 *)
Definition g_union_type_extension_content : ex := plus g_ignored >> Ref R_union_name >> Star g_ignored >> ((opt (Ref
  R_directives >> Star g_ignored) >> g_union_member_types) </> Ref R_directives).
(** Grammar.h:1085-1087 *)
Definition g_union_type_extension : ex := g_union_type_extension_start >> Must (expected "UnionTypeExtension")
  g_union_type_extension_content.
(** Grammar.h:1089-1091 *)
Definition g_enum_type_extension_start : ex := g_extend_keyword >> plus g_ignored >> g_enum_keyword.
(** Grammar.h:1093-1097 *)
Definition g_enum_type_extension_content : ex := plus g_ignored >> Ref R_enum_name >> Star g_ignored >> ((opt (Ref
  R_directives >> Star g_ignored) >> g_enum_values_definition) </> Ref R_directives).
(** Grammar.h:1100-1102 *)
Definition g_enum_type_extension : ex := g_enum_type_extension_start >> Must (expected "EnumTypeExtension")
  g_enum_type_extension_content.
(** Grammar.h:1104-1106 *)
Definition g_input_object_type_extension_start : ex := g_extend_keyword >> plus g_ignored >> g_input_keyword.
(** Grammar.h:1108-1112 *)
Definition g_input_object_type_extension_content : ex := plus g_ignored >> Ref R_object_name >> Star g_ignored >>
  ((opt (Ref R_directives >> Star g_ignored) >> Ref R_input_fields_definition) </> Ref R_directives).
(** Grammar.h:1115-1118 *)
Definition g_input_object_type_extension : ex := g_input_object_type_extension_start >> Must (expected
  "InputObjectTypeExtension") g_input_object_type_extension_content.
(** Grammar.h:1121-1125 *)
Definition g_type_extension : ex := Ref R_scalar_type_extension </> Ref R_object_type_extension </> Ref
  R_interface_type_extension </> Ref R_union_type_extension </> Ref R_enum_type_extension </> Ref
  R_input_object_type_extension.
(** Grammar.h:1128-1130 *)
Definition g_type_system_extension : ex := Ref R_schema_extension </> g_type_extension.
(** Grammar.h:1133-1135 *)
Definition g_mixed_definition : ex := g_executable_definition </> g_type_system_definition </>
  g_type_system_extension.
(** Grammar.h:1137-1142 *)
Definition g_mixed_document_content : ex := Bof >> opt p_bom >> Star g_ignored >> list_of g_mixed_definition (Star
  g_ignored) >> Star g_ignored >> Eof.
(** Grammar.h:1145-1147 *)
Definition g_mixed_document : ex := Must (expected "Document") g_mixed_document_content.
(** Grammar.h:1149-1154 *)
Definition g_executable_document_content : ex := Bof >> opt p_bom >> Star g_ignored >> list_of
  g_executable_definition (Star g_ignored) >> Star g_ignored >> Eof.
(** Grammar.h:1157-1159 *)
Definition g_executable_document : ex := Must "Expected executable http://spec.graphql.org/June2018/#Document"
  g_executable_document_content.
(** Grammar.h:1162-1164 *)
Definition g_schema_type_definition : ex := g_type_system_definition </> g_type_system_extension.
(** Grammar.h:1166-1171 *)
Definition g_schema_document_content : ex := Bof >> opt p_bom >> Star g_ignored >> list_of g_schema_type_definition
  (Star g_ignored) >> Star g_ignored >> Eof.
(** Grammar.h:1174-1176 *)
Definition g_schema_document : ex := Must "Expected schema type http://spec.graphql.org/June2018/#Document"
  g_schema_document_content.

(** The rule a name stands for. *)
Definition grammar (r : rule) : ex :=
  match r with
  | R_operation_type => g_operation_type
  | R_list_value => g_list_value
  | R_object_field_name => g_object_field_name
  | R_object_field => g_object_field
  | R_object_value => g_object_value
  | R_variable_value => g_variable_value
  | R_integer_value => g_integer_value
  | R_float_value => g_float_value
  | R_escaped_unicode => g_escaped_unicode
  | R_escaped_char => g_escaped_char
  | R_string_quote_character => g_string_quote_character
  | R_block_escape_sequence => g_block_escape_sequence
  | R_block_quote_character => g_block_quote_character
  | R_string_value => g_string_value
  | R_true_keyword => g_true_keyword
  | R_false_keyword => g_false_keyword
  | R_null_keyword => g_null_keyword
  | R_enum_value => g_enum_value
  | R_field_name => g_field_name
  | R_argument_name => g_argument_name
  | R_argument => g_argument
  | R_arguments => g_arguments
  | R_directive_name => g_directive_name
  | R_directive => g_directive
  | R_directives => g_directives
  | R_variable => g_variable
  | R_scalar_name => g_scalar_name
  | R_named_type => g_named_type
  | R_list_type => g_list_type
  | R_nonnull_type => g_nonnull_type
  | R_default_value => g_default_value
  | R_operation_definition => g_operation_definition
  | R_fragment_definition => g_fragment_definition
  | R_schema_definition => g_schema_definition
  | R_scalar_type_definition => g_scalar_type_definition
  | R_object_type_definition => g_object_type_definition
  | R_interface_type_definition => g_interface_type_definition
  | R_union_type_definition => g_union_type_definition
  | R_enum_type_definition => g_enum_type_definition
  | R_input_object_type_definition => g_input_object_type_definition
  | R_directive_definition => g_directive_definition
  | R_schema_extension => g_schema_extension
  | R_scalar_type_extension => g_scalar_type_extension
  | R_object_type_extension => g_object_type_extension
  | R_interface_type_extension => g_interface_type_extension
  | R_union_type_extension => g_union_type_extension
  | R_enum_type_extension => g_enum_type_extension
  | R_input_object_type_extension => g_input_object_type_extension
  | R_description => g_description
  | R_object_name => g_object_name
  | R_interface_name => g_interface_name
  | R_union_name => g_union_name
  | R_enum_name => g_enum_name
  | R_root_operation_definition => g_root_operation_definition
  | R_interface_type => g_interface_type
  | R_input_field_definition => g_input_field_definition
  | R_input_fields_definition => g_input_fields_definition
  | R_arguments_definition => g_arguments_definition
  | R_field_definition => g_field_definition
  | R_fields_definition => g_fields_definition
  | R_union_type => g_union_type
  | R_enum_value_definition => g_enum_value_definition
  | R_directive_location => g_directive_location
  | R_operation_type_definition => g_operation_type_definition
  | R_variable_name => g_variable_name
  | R_alias_name => g_alias_name
  | R_alias => g_alias
  | R_operation_name => g_operation_name
  | R_fragment_name => g_fragment_name
  | R_field => g_field
  | R_fragment_spread => g_fragment_spread
  | R_inline_fragment => g_inline_fragment
  | R_selection_set => g_selection_set
  | R_type_condition => g_type_condition
  end.

(** SyntaxTree.cpp:107-409 ast_selector, 411-494 schema_selector, 496-549 executable_selector. *)
Definition ast_keeps (r : rule) : bool :=
  match r with
  | R_operation_type | R_list_value | R_object_field_name | R_object_field | R_object_value | R_variable_value |
    R_integer_value | R_float_value | R_escaped_unicode | R_escaped_char | R_string_quote_character |
    R_block_escape_sequence | R_block_quote_character | R_string_value | R_true_keyword | R_false_keyword |
    R_null_keyword | R_enum_value | R_field_name | R_argument_name | R_argument | R_arguments | R_directive_name |
    R_directive | R_directives | R_variable | R_scalar_name | R_named_type | R_list_type | R_nonnull_type |
    R_default_value | R_operation_definition | R_fragment_definition | R_schema_definition |
    R_scalar_type_definition | R_object_type_definition | R_interface_type_definition | R_union_type_definition |
    R_enum_type_definition | R_input_object_type_definition | R_directive_definition | R_schema_extension |
    R_scalar_type_extension | R_object_type_extension | R_interface_type_extension | R_union_type_extension |
    R_enum_type_extension | R_input_object_type_extension => true
  | _ => false
  end.
Definition schema_selector (r : rule) : keeps :=
  match r with
  | R_description | R_object_name | R_interface_name | R_union_name | R_enum_name | R_root_operation_definition |
    R_interface_type | R_input_field_definition | R_input_fields_definition | R_arguments_definition |
    R_field_definition | R_fields_definition | R_union_type | R_enum_value_definition | R_directive_location |
    R_operation_type_definition => Keep
  | _ => if ast_keeps r then Keep else Skip
  end.
Definition executable_selector (r : rule) : keeps :=
  match r with
  | R_alias => FoldOne
  | R_variable_name | R_alias_name | R_operation_name | R_fragment_name | R_field | R_fragment_spread |
    R_inline_fragment | R_selection_set | R_type_condition => Keep
  | _ => if ast_keeps r then Keep else Skip
  end.
