(** src/decode/parser.rs.  Definitions only. *)
From Verif Require Import Chars Floats Json Shared.

(** src/decode/parser.rs:17-21 *)
Record field_name := Field { fn_name : str; fn_quoted : bool }.

(** src/decode/parser.rs:8-15 *)
Record array_header := Header {
  ah_key : option str;
  ah_quoted : bool;
  ah_length : N;
  ah_delimiter : char;
  ah_fields : option (list field_name)
}.

(** [&s[a..b]] and [&s[a..]]. *)
Definition slice (a b : nat) (s : str) : str := firstn (b - a) (skipn a s).
(** [s[a..].find(c).map(|i| a + i)] *)
Definition find_from (c : char) (a : nat) (s : str) : option nat :=
  option_map (fun i => (a + i)%nat) (find_char c (skipn a s)).

(** [str::parse::<usize>]: optional '+', at least one digit, value at most [usize::MAX]. *)
Definition parse_usize (s : str) : option N :=
  let ds := match s with c :: r => if c =? cPLUS then r else s | [] => [] end in
  if is_empty ds then None
  else if forallb is_digit ds then
    if dec_val ds <=? USIZE_MAX then Some (dec_val ds) else None
  else None.

(** src/decode/parser.rs:167-184 *)
Definition parse_bracket_segment (seg : str) (default_delimiter : char) : result (N * char) :=
  let '(content, delimiter) :=
    if ends_with cTAB seg then (pop seg, cTAB)
    else if ends_with cPIPE seg then (pop seg, cPIPE)
    else (seg, default_delimiter) in
  match parse_usize content with
  | Some n => Ok (n, delimiter)
  | None => Err EInvalidLength
  end.

(** src/decode/parser.rs:187-224 *)
Fixpoint pdv_loop (delimiter : char) (input : str) (in_quotes : bool) (buffer : str)
         (values : list str) : list str :=
  match input with
  | [] => if negb (is_empty buffer) || negb (is_empty values)
          then values ++ [trim buffer] else values
  | ch :: r =>
      if (ch =? cBSLASH) && in_quotes then
        match r with
        | next :: r' => pdv_loop delimiter r' in_quotes (buffer ++ [ch; next]) values
        | [] => pdv_loop delimiter r in_quotes (buffer ++ [ch]) values
        end
      else if ch =? cDQ then pdv_loop delimiter r (negb in_quotes) (buffer ++ [ch]) values
      else if (ch =? delimiter) && negb in_quotes then
        pdv_loop delimiter r in_quotes [] (values ++ [trim buffer])
      else pdv_loop delimiter r in_quotes (buffer ++ [ch]) values
  end.
Definition parse_delimited_values (input : str) (delimiter : char) : list str :=
  pdv_loop delimiter input false [] [].

(** src/decode/parser.rs:284-300 *)
Definition parse_string_literal (token : str) : result str :=
  let trimmed := trim token in
  if starts_with cDQ trimmed then
    match find_closing_quote trimmed 0 with
    | None => Err EUnterminatedString
    | Some closing =>
        if negb (Nat.eqb closing (length trimmed - 1)) then Err ECharsAfterQuote
        else unescape_string (slice 1 closing trimmed)
    end
  else Ok trimmed.

(** src/decode/parser.rs:243-277 *)
Definition parse_primitive_token (token : str) : result prim :=
  let trimmed := trim token in
  if is_empty trimmed then Ok (PStr [])
  else if starts_with cDQ trimmed then
    let? s := parse_string_literal trimmed in Ok (PStr s)
  else if is_boolean_or_null_literal trimmed then
    Ok (if str_eqb trimmed (lit "true") then PBool true
        else if str_eqb trimmed (lit "false") then PBool false
        else PNull)
  else if is_numeric_literal trimmed then
    let parsed := unwrap_or (parse_f64 trimmed) f64_nan in
    Ok (PNum (if f64_is_neg_zero parsed then f64_zero else parsed))
  else Ok (PStr trimmed).

(** src/decode/parser.rs:231-236 *)
Definition map_row_values_to_primitives (values : list str) : result (list prim) :=
  map_result parse_primitive_token values.

(** src/decode/parser.rs:156 *)
Definition MAX_DECLARED_ARRAY_LENGTH : N := 100000000.

(** src/decode/parser.rs:122-131 *)
Definition parse_fields (fields_content : str) (delimiter : char) : result (list field_name) :=
  map_result (fun field =>
                let trimmed := trim field in
                let? name := parse_string_literal trimmed in
                Ok (Field name (starts_with cDQ trimmed)))
             (parse_delimited_values fields_content delimiter).

(** src/decode/parser.rs:40-54: where the bracket starts. *)
Definition bracket_start_of (content : str) : result (option nat) :=
  let trimmed := trim_start content in
  if starts_with cDQ trimmed then
    match find_closing_quote trimmed 0 with
    | None => Err EUnterminatedString
    | Some closing =>
        if negb (starts_with cLBRACK (skipn (S closing) trimmed)) then Ok None
        else
          let leading_ws := (length content - length trimmed)%nat in
          let key_end := (leading_ws + closing + 1)%nat in
          Ok (find_from cLBRACK key_end content)
    end
  else Ok (find_char cLBRACK content).

(** src/decode/parser.rs:65-84: the colon that ends the header. *)
Definition header_colon (content : str) (bracket_end : nat) : option nat :=
  let brace_start := find_from cLBRACE (S bracket_end) content in
  let colon_after_bracket := find_from cCOLON (S bracket_end) content in
  let brace_end :=
    match brace_start, colon_after_bracket with
    | Some bs, Some co =>
        if Nat.ltb bs co then
          match find_from cRBRACE bs content with
          | Some found_end => S found_end
          | None => S bracket_end
          end
        else S bracket_end
    | _, _ => S bracket_end
    end in
  find_from cCOLON brace_end content.

(** src/decode/parser.rs:86-96 *)
Definition header_key (content : str) (bracket_start : nat) : result (option str * bool) :=
  if Nat.ltb 0 bracket_start then
    let raw_key := trim (firstn bracket_start content) in
    if starts_with cDQ raw_key then
      let? k := parse_string_literal raw_key in Ok (Some k, true)
    else if negb (is_empty raw_key) then Ok (Some raw_key, false)
    else Ok (None, false)
  else Ok (None, false).

(** src/decode/parser.rs:114-133 *)
Definition header_fields (content : str) (bracket_end colon_index : nat) (delimiter : char)
  : result (option (list field_name)) :=
  match find_from cLBRACE (S bracket_end) content with
  | Some brace_start =>
      if Nat.ltb brace_start colon_index then
        match find_from cRBRACE brace_start content with
        | Some found_end =>
            if Nat.ltb found_end colon_index then
              let? fs := parse_fields (slice (S brace_start) found_end content) delimiter in
              Ok (Some fs)
            else Ok None
        | None => Ok None
        end
      else Ok None
  | None => Ok None
  end.

(** src/decode/parser.rs:34-149 *)
Definition parse_array_header_line (content : str) (default_delimiter : char)
  : result (option (array_header * option str)) :=
  let? bs := bracket_start_of content in
  match bs with
  | None => Ok None
  | Some bracket_start =>
      match find_from cRBRACK bracket_start content with
      | None => Ok None
      | Some bracket_end =>
          match header_colon content bracket_end with
          | None => Ok None
          | Some colon_index =>
              let? (key, key_was_quoted) := header_key content bracket_start in
              let after_colon := trim (skipn (S colon_index) content) in
              match parse_bracket_segment (slice (S bracket_start) bracket_end content)
                                          default_delimiter with
              | Err _ => Ok None
              | Ok (length, delimiter) =>
                  if MAX_DECLARED_ARRAY_LENGTH <? length then Err (ELengthCap length)
                  else
                    let? fields := header_fields content bracket_end colon_index delimiter in
                    Ok (Some (Header key key_was_quoted length delimiter fields,
                              if is_empty after_colon then None else Some after_colon))
              end
          end
      end
  end.

(** src/decode/parser.rs:307-320 *)
Definition parse_unquoted_key (content : str) (start : nat) : result (str * nat) :=
  match find_from cCOLON start content with
  | None => Err EMissingColon
  | Some pos => Ok (trim (slice start pos content), S pos)
  end.

(** src/decode/parser.rs:327-338 *)
Definition parse_quoted_key (content : str) (start : nat) : result (str * nat) :=
  match find_closing_quote content start with
  | None => Err EUnterminatedKey
  | Some closing =>
      let? key := unescape_string (slice (S start) closing content) in
      if starts_with cCOLON (skipn (S closing) content)
      then Ok (key, S (S closing))
      else Err EMissingColon
  end.

(** src/decode/parser.rs:345-353 *)
Definition parse_key_token (content : str) (start : nat) : result (str * nat * bool) :=
  let is_quoted := starts_with cDQ (skipn start content) in
  let? (key, e) := (if is_quoted then parse_quoted_key content start
                    else parse_unquoted_key content start) in
  Ok (key, e, is_quoted).

(** src/decode/parser.rs:356-364 *)
Definition is_key_value_content (content : str) : bool :=
  match find_unquoted_char content cCOLON 0 with Some _ => true | None => false end.
Definition is_array_header_content (content : str) : bool :=
  starts_with cLBRACK (trim_start content) && is_key_value_content content.
