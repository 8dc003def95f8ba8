(** The recorded messages of /repo/tests/snapshots (inputs: /repo/tests/edge_cases.rs:594-766), run
    through the model.  Tests of the translation; no theorem depends on them. *)
From Verif Require Import Chars Floats Json Decoders EventBuilder Expand DecodeApi ErrText.

Definition lines_of (ls : list str) : str := join cLF ls.
Definition says (s : str) (o : option decode_options) (expected : str) : bool :=
  match try_decode s o with
  | Ok _ => false
  | Err e => match message e with Some m => str_eqb m expected | None => false end
  end.
Definition strict_opts : option decode_options := Some (DecOpts None (Some true) None).
Definition expand_opts : option decode_options := Some (DecOpts None (Some true) (Some EPSafe)).

Example strict_mode_rejects_tabs : says (cTAB :: lit "name: value") strict_opts
  (lit "Validation error at line 1: Tabs are not allowed in indentation in strict mode") = true.
Proof. vm_compute. reflexivity. Qed.
Example err_strict_blank_line_inside_list_array :
  says (lines_of [lit "items[2]:"; lit "  - a"; []; lit "  - b"]) strict_opts
  (lit "Line 3: Blank lines inside list array are not allowed in strict mode") = true.
Proof. vm_compute. reflexivity. Qed.
Example err_strict_blank_line_inside_tabular :
  says (lines_of [lit "rows[2]{id}:"; lit "  1"; []; lit "  2"]) strict_opts
  (lit "Line 3: Blank lines inside tabular array are not allowed in strict mode") = true.
Proof. vm_compute. reflexivity. Qed.
Example err_strict_extra_list_items :
  says (lines_of [lit "items[1]:"; lit "  - a"; lit "  - b"]) strict_opts
  (lit "Expected 1 list array items, but found more") = true.
Proof. vm_compute. reflexivity. Qed.
Example err_strict_extra_tabular_rows :
  says (lines_of [lit "rows[1]{id}:"; lit "  1"; lit "  2"]) strict_opts
  (lit "Expected 1 tabular rows, but found more") = true.
Proof. vm_compute. reflexivity. Qed.
Example err_strict_too_few_list_items :
  says (lines_of [lit "items[3]:"; lit "  - a"]) strict_opts
  (lit "Expected 3 list array items, but got 1") = true.
Proof. vm_compute. reflexivity. Qed.
Example err_strict_too_few_inline_items :
  says (lit "items[3]: a,b") strict_opts (lit "Expected 3 inline array items, but got 2") = true.
Proof. vm_compute. reflexivity. Qed.
Example err_strict_tabular_row_width_mismatch :
  says (lines_of [lit "rows[1]{a,b,c}:"; lit "  1,2"]) strict_opts
  (lit "Expected 3 tabular row values, but got 2") = true.
Proof. vm_compute. reflexivity. Qed.
Example err_huge_declared_length_rejected :
  says (lit "items[9999999999]:") None
  (lit "Declared array length 9999999999 exceeds maximum allowed (100000000)") = true.
Proof. vm_compute. reflexivity. Qed.
Example err_unterminated_quoted_string_value :
  says (lit "name: ""unterminated") None (lit "Unterminated string: missing closing quote") = true.
Proof. vm_compute. reflexivity. Qed.
Example err_unterminated_quoted_key :
  says (lit """unterminated key: value") None (lit "Unterminated string: missing closing quote") = true.
Proof. vm_compute. reflexivity. Qed.
Example err_invalid_escape_in_string :
  says (lit "name: ""bad \x escape""") None (lit "Invalid escape sequence: \x") = true.
Proof. vm_compute. reflexivity. Qed.
Example err_path_expansion_conflict :
  says (lines_of [lit "a.b: 1"; lit "a:"; lit "  b: 2"]) expand_opts
  (lit "Path expansion conflict at key ""b"": cannot merge primitive with primitive") = true.
Proof. vm_compute. reflexivity. Qed.
Example err_strict_rejects_tab_indent_in_list :
  says (lines_of [lit "items[1]:"; cTAB :: lit "- a"]) strict_opts
  (lit "Validation error at line 2: Tabs are not allowed in indentation in strict mode") = true.
Proof. vm_compute. reflexivity. Qed.
Example err_strict_indentation_not_multiple :
  says (lines_of [lit "outer:"; lit " a: 1"]) strict_opts
  (lit "Validation error at line 2: Indentation must be exact multiple of 2, but found 1 spaces") = true.
Proof. vm_compute. reflexivity. Qed.
Example err_expand_paths_exceeds_depth_limit :
  says (join cDOT (repeat [97%N] 400) ++ lit ": 1") expand_opts
  (lit "Path expansion exceeded maximum depth of 256") = true.
Proof. vm_compute. reflexivity. Qed.
Example err_malformed_array_header_missing_close_bracket :
  match try_decode (lit "items[3: a,b,c") None with Ok _ => true | Err _ => false end = true.
Proof. vm_compute. reflexivity. Qed.
Example err_bare_key_missing_colon_treated_as_primitive :
  try_decode (lit "no_colon") None = Ok (JPrim (PStr (lit "no_colon"))).
Proof. vm_compute. reflexivity. Qed.
Example err_bracket_segment_invalid_length_falls_back :
  try_decode (lit "key[abc]: value") None = Ok (JObj [(lit "key[abc]", JPrim (PStr (lit "value")))]).
Proof. vm_compute. reflexivity. Qed.
