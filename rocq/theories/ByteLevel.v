(** The decoder's handling of text as Rust sees it: a [&str] is its bytes, every index is a byte
    index.  Definitions only.

    Shared.v, Scanner.v and Parser.v work with lists of characters and character indices.  Here the
    same functions are written out once more the way the source has them: loops over
    [as_bytes()], slices [&s[a..b]] that panic outside the string or inside a character, indexing
    that panics out of range, subtraction that panics below zero.  ByteProof.v shows that the two
    agree.  Methods of [str] that work by characters ([trim], [chars], [ends_with], [parse]) are
    taken from the character model. *)
From Verif Require Import Chars Floats Json Shared Scanner Parser DecValidation Decoders Utf8.

Local Open Scope nat_scope.

(** * core::str *)

(** [bytes[i]] *)
Definition bget (b : bytes) (i : nat) : result N :=
  match nth_error b i with Some x => Ok x | None => Err EPanic end.
(** [i < bytes.len() && p(bytes[i])] *)
Definition bat (p : N -> bool) (b : bytes) (i : nat) : bool :=
  match nth_error b i with Some x => p x | None => false end.
(** [a - b] on usize *)
Definition usub (a b : nat) : result nat := if b <=? a then Ok (a - b) else Err EPanic.
(** str::is_char_boundary *)
Definition boundary (b : bytes) (i : nat) : bool :=
  (i =? 0) || (i =? length b) || bat (fun x => negb (cont x)) b i.
(** [&s[i..j]], [&s[i..]], [&s[..j]] *)
Definition bslice (b : bytes) (i j : nat) : result bytes :=
  if (i <=? j) && boundary b i && boundary b j then Ok (firstn (j - i) (skipn i b)) else Err EPanic.
Definition bfrom (b : bytes) (i : nat) : result bytes := bslice b i (length b).
Definition bto (b : bytes) (j : nat) : result bytes := bslice b 0 j.
(** [s.find(c)], [s.contains(c)], [s.starts_with(c)] for an ASCII character. *)
Definition bfind (c : N) (b : bytes) : option nat := find_char c b.
Definition bcontains (c : N) (b : bytes) : bool := match bfind c b with Some _ => true | None => false end.
Definition bstarts (c : N) (b : bytes) : bool := bat (N.eqb c) b 0.
(** Methods that work by characters. *)
Definition chars (b : bytes) : str := match from_utf8 b with Some s => s | None => [] end.
Definition btrim (b : bytes) : bytes := utf8 (trim (chars b)).
Definition btrim_start (b : bytes) : bytes := utf8 (trim_start (chars b)).
Definition on_ok {A B} (f : A -> B) (r : result A) : result B := match r with Ok a => Ok (f a) | Err e => Err e end.

(** * src/shared/string_utils.rs *)

(** src/shared/string_utils.rs:40-65 *)
Definition bunescape (b : bytes) : result bytes := on_ok utf8 (unescape_string (chars b)).

(** The loop of src/shared/string_utils.rs:75-85. *)
Fixpoint bclosing_loop (fuel : nat) (b : bytes) (i : nat) : result (option nat) :=
  match fuel with
  | O => Err EFuel
  | S fuel =>
      if i <? length b then
        let? x := bget b i in
        if (x =? cBSLASH)%N && (i + 1 <? length b) then bclosing_loop fuel b (i + 2)
        else if (x =? cDQ)%N then Ok (Some i)
        else bclosing_loop fuel b (i + 1)
      else Ok None
  end.
(** src/shared/string_utils.rs:68-87 *)
Definition bfind_closing_quote (b : bytes) (start : nat) : result (option nat) :=
  if length b <=? start then Ok None else bclosing_loop (S (length b)) b (start + 1).

(** The loop of src/shared/string_utils.rs:103-119. *)
Fixpoint bunquoted_loop (fuel : nat) (target : N) (b : bytes) (i : nat) (in_quotes : bool) : result (option nat) :=
  match fuel with
  | O => Err EFuel
  | S fuel =>
      if i <? length b then
        let? x := bget b i in
        if in_quotes && (x =? cBSLASH)%N && (i + 1 <? length b) then bunquoted_loop fuel target b (i + 2) in_quotes
        else if (x =? cDQ)%N then bunquoted_loop fuel target b (i + 1) (negb in_quotes)
        else if (x =? target)%N && negb in_quotes then Ok (Some i)
        else bunquoted_loop fuel target b (i + 1) in_quotes
      else Ok None
  end.
(** src/shared/string_utils.rs:90-120 *)
Definition bfind_unquoted_char (b : bytes) (target : char) (start : nat) : result (option nat) :=
  if (128 <=? target)%N then Ok None else bunquoted_loop (S (length b)) target b start false.

(** * src/shared/literal_utils.rs *)

(** [while i < bytes.len() && bytes[i].is_ascii_digit() { i += 1; }] *)
Fixpoint bdigits (fuel : nat) (b : bytes) (i : nat) : nat :=
  match fuel with
  | O => i
  | S fuel => if bat is_digit b i then bdigits fuel b (i + 1) else i
  end.
(** src/shared/literal_utils.rs:43-54 and 113-124: the index after the fraction; [None] is
    [return false]. *)
Definition bfrac (b : bytes) (i : nat) : option nat :=
  if bat (N.eqb cDOT) b i then
    let j := bdigits (length b) b (i + 1) in
    if j - (i + 1) =? 0 then None else Some j
  else Some i.
(** src/shared/literal_utils.rs:56-69 and 126-139 *)
Definition bexp (b : bytes) (i : nat) : option nat :=
  if bat (fun x => (x =? cLE)%N || (x =? cUE)%N) b i then
    let i := i + 1 in
    let i := if bat (fun x => (x =? cPLUS)%N || (x =? cMINUS)%N) b i then i + 1 else i in
    let j := bdigits (length b) b i in
    if j - i =? 0 then None else Some j
  else Some i.
Definition btail (b : bytes) (i : nat) : bool :=
  match bfrac b i with
  | None => false
  | Some i => match bexp b i with
              | None => false
              | Some i => i =? length b
              end
  end.
(** src/shared/literal_utils.rs:9-82 *)
Definition bis_numeric_like (value : bytes) : result bool :=
  let b := btrim value in
  if is_empty b then Ok false
  else
    let? x := bget b 0 in
    if (x =? cMINUS)%N && (length b <=? 1) then Ok false
    else
      let digit_start := if (x =? cMINUS)%N then 1 else 0 in
      let i := bdigits (length b) b digit_start in
      let digit_count := i - digit_start in
      if digit_count =? 0 then Ok false
      else
        let? zero := if 1 <? digit_count then let? y := bget b digit_start in Ok (y =? cZERO)%N else Ok false in
        if (zero : bool) then Ok true else Ok (btail b i).
(** src/shared/literal_utils.rs:85-145 *)
Definition bis_numeric_literal (value : bytes) : result bool :=
  let b := btrim value in
  if is_empty b then Ok false
  else
    let? x := bget b 0 in
    if (x =? cMINUS)%N && (length b <=? 1) then Ok false
    else
      let i := if (x =? cMINUS)%N then 1 else 0 in
      let? y := bget b i in
      let next :=
        if (y =? cZERO)%N then (if bat is_digit b (i + 1) then None else Some (i + 1))
        else if is_digit y then Some (bdigits (length b) b i)
        else None in
      match next with
      | None => Ok false
      | Some i => Ok (btail b i && match parse_f64 (chars b) with Some f => f64_is_finite f | None => false end)
      end.

(** * src/decode/parser.rs *)

(** src/decode/parser.rs:284-300 *)
Definition bparse_string_literal (token : bytes) : result bytes :=
  let trimmed := btrim token in
  if bstarts cDQ trimmed then
    let? closing := bfind_closing_quote trimmed 0 in
    match closing with
    | None => Err EUnterminatedString
    | Some closing =>
        let? last := usub (length trimmed) 1 in
        if negb (closing =? last) then Err ECharsAfterQuote
        else let? content := bslice trimmed 1 closing in bunescape content
    end
  else Ok trimmed.

(** A primitive whose string is given by its bytes. *)
Inductive bprim := BNull | BBool (b : bool) | BNum (x : f64) | BStr (s : bytes).
Definition bprim_of (p : prim) : bprim :=
  match p with PNull => BNull | PBool b => BBool b | PNum x => BNum x | PStr s => BStr (utf8 s) end.
(** src/decode/parser.rs:243-277 *)
Definition bparse_primitive_token (token : bytes) : result bprim :=
  let trimmed := btrim token in
  if is_empty trimmed then Ok (BStr [])
  else if bstarts cDQ trimmed then let? s := bparse_string_literal trimmed in Ok (BStr s)
  else if is_boolean_or_null_literal trimmed then
    Ok (if str_eqb trimmed (lit "true") then BBool true
        else if str_eqb trimmed (lit "false") then BBool false
        else BNull)
  else
    let? num := bis_numeric_literal trimmed in
    if (num : bool) then
      let parsed := unwrap_or (parse_f64 (chars trimmed)) f64_nan in
      Ok (BNum (if f64_is_neg_zero parsed then f64_zero else parsed))
    else Ok (BStr trimmed).

(** src/decode/parser.rs:187-224: by characters. *)
Definition bparse_delimited_values (input : bytes) (delimiter : char) : list bytes :=
  map utf8 (parse_delimited_values (chars input) delimiter).
(** src/decode/parser.rs:167-184: by characters. *)
Definition bparse_bracket_segment (seg : bytes) (default_delimiter : char) : result (N * char) :=
  parse_bracket_segment (chars seg) default_delimiter.

Record bfield := BField { bf_name : bytes; bf_quoted : bool }.
Record bheader := BHeader {
  bh_key : option bytes;
  bh_quoted : bool;
  bh_length : N;
  bh_delimiter : char;
  bh_fields : option (list bfield)
}.
Definition bfield_of (f : field_name) : bfield := BField (utf8 (fn_name f)) (fn_quoted f).
Definition bheader_of (h : array_header) : bheader :=
  BHeader (option_map utf8 (ah_key h)) (ah_quoted h) (ah_length h) (ah_delimiter h)
          (option_map (map bfield_of) (ah_fields h)).

(** [content[i..].find(c).map(|idx| i + idx)] *)
Definition bfind_from (c : N) (i : nat) (b : bytes) : result (option nat) :=
  let? r := bfrom b i in Ok (option_map (fun idx => i + idx) (bfind c r)).

(** src/decode/parser.rs:40-54 *)
Definition bbracket_start_of (content : bytes) : result (option nat) :=
  let trimmed := btrim_start content in
  if bstarts cDQ trimmed then
    let? closing := bfind_closing_quote trimmed 0 in
    match closing with
    | None => Err EUnterminatedString
    | Some closing =>
        let? after_quote := bfrom trimmed (closing + 1) in
        if negb (bstarts cLBRACK after_quote) then Ok None
        else
          let? leading_ws := usub (length content) (length trimmed) in
          let key_end := leading_ws + closing + 1 in
          bfind_from cLBRACK key_end content
    end
  else Ok (bfind cLBRACK content).

(** src/decode/parser.rs:65-84: where the opening brace is, and the colon. *)
Definition bheader_colon (content : bytes) (bracket_end : nat) : result (option nat * option nat) :=
  let? brace_start := bfind_from cLBRACE (bracket_end + 1) content in
  let? colon_after_bracket := bfind_from cCOLON (bracket_end + 1) content in
  let? brace_end :=
    match brace_start, colon_after_bracket with
    | Some bs, Some co =>
        if bs <? co then
          let? found := bfind_from cRBRACE bs content in
          Ok (match found with Some found_end => found_end + 1 | None => bracket_end + 1 end)
        else Ok (bracket_end + 1)
    | _, _ => Ok (bracket_end + 1)
    end in
  let? colon := bfind_from cCOLON brace_end content in
  Ok (brace_start, colon).

(** src/decode/parser.rs:86-96 *)
Definition bheader_key (content : bytes) (bracket_start : nat) : result (option bytes * bool) :=
  if 0 <? bracket_start then
    let? before := bto content bracket_start in
    let raw_key := btrim before in
    if bstarts cDQ raw_key then
      let? k := bparse_string_literal raw_key in Ok (Some k, true)
    else if negb (is_empty raw_key) then Ok (Some raw_key, false)
    else Ok (None, false)
  else Ok (None, false).

(** src/decode/parser.rs:114-133 *)
Definition bheader_fields (content : bytes) (brace_start : option nat) (colon_index : nat) (delimiter : char)
  : result (option (list bfield)) :=
  match brace_start with
  | Some brace_start =>
      if brace_start <? colon_index then
        let? found := bfind_from cRBRACE brace_start content in
        match found with
        | Some found_end =>
            if found_end <? colon_index then
              let? fields_content := bslice content (brace_start + 1) found_end in
              let? fs := map_result (fun field =>
                                       let trimmed := btrim field in
                                       let? name := bparse_string_literal trimmed in
                                       Ok (BField name (bstarts cDQ trimmed)))
                                    (bparse_delimited_values fields_content delimiter) in
              Ok (Some fs)
            else Ok None
        | None => Ok None
        end
      else Ok None
  | None => Ok None
  end.

(** src/decode/parser.rs:34-149 *)
Definition bparse_array_header_line (content : bytes) (default_delimiter : char)
  : result (option (bheader * option bytes)) :=
  let? bs := bbracket_start_of content in
  match bs with
  | None => Ok None
  | Some bracket_start =>
      let? be := bfind_from cRBRACK bracket_start content in
      match be with
      | None => Ok None
      | Some bracket_end =>
          let? (brace_start, colon) := bheader_colon content bracket_end in
          match colon with
          | None => Ok None
          | Some colon_index =>
              let? (key, key_was_quoted) := bheader_key content bracket_start in
              let? after := bfrom content (colon_index + 1) in
              let after_colon := btrim after in
              let? bracket_content := bslice content (bracket_start + 1) bracket_end in
              match bparse_bracket_segment bracket_content default_delimiter with
              | Err _ => Ok None
              | Ok (length, delimiter) =>
                  if (MAX_DECLARED_ARRAY_LENGTH <? length)%N then Err (ELengthCap length)
                  else
                    let? fields := bheader_fields content brace_start colon_index delimiter in
                    Ok (Some (BHeader key key_was_quoted length delimiter fields,
                              if is_empty after_colon then None else Some after_colon))
              end
          end
      end
  end.

(** The loop of src/decode/parser.rs:308-311. *)
Fixpoint bcolon_loop (fuel : nat) (b : bytes) (pos : nat) : nat :=
  match fuel with
  | O => pos
  | S fuel => if bat (fun x => negb (x =? cCOLON)%N) b pos then bcolon_loop fuel b (pos + 1) else pos
  end.
(** src/decode/parser.rs:307-320 *)
Definition bparse_unquoted_key (content : bytes) (start : nat) : result (bytes * nat) :=
  let pos := bcolon_loop (S (length content)) content start in
  let? missing := if length content <=? pos then Ok true
                  else let? x := bget content pos in Ok (negb (x =? cCOLON)%N) in
  if (missing : bool) then Err EMissingColon
  else let? key := bslice content start pos in Ok (btrim key, pos + 1).

(** src/decode/parser.rs:327-338 *)
Definition bparse_quoted_key (content : bytes) (start : nat) : result (bytes * nat) :=
  let? closing := bfind_closing_quote content start in
  match closing with
  | None => Err EUnterminatedKey
  | Some closing =>
      let? key_content := bslice content (start + 1) closing in
      let? key := bunescape key_content in
      let pos := closing + 1 in
      let? missing := if length content <=? pos then Ok true
                      else let? x := bget content pos in Ok (negb (x =? cCOLON)%N) in
      if (missing : bool) then Err EMissingColon else Ok (key, pos + 1)
  end.

(** src/decode/parser.rs:345-353 *)
Definition bparse_key_token (content : bytes) (start : nat) : result (bytes * nat * bool) :=
  let is_quoted := bat (N.eqb cDQ) content start in
  let? (key, e) := (if is_quoted then bparse_quoted_key content start else bparse_unquoted_key content start) in
  Ok (key, e, is_quoted).

(** src/decode/parser.rs:356-364 *)
Definition bis_key_value_content (content : bytes) : result bool :=
  let? r := bfind_unquoted_char content cCOLON 0 in
  Ok (match r with Some _ => true | None => false end).
Definition bis_array_header_content (content : bytes) : result bool :=
  if bstarts cLBRACK (btrim_start content) then bis_key_value_content content else Ok false.

(** * Slices in the decoders *)

(** src/decode/decoders.rs:110-111 and src/decode/async_decode.rs:261-262: a key, and what follows. *)
Definition bkey_and_rest (content : bytes) : result (bytes * bool * bytes) :=
  let? (key, e, is_quoted) := bparse_key_token content 0 in
  let? rest := bfrom content e in
  Ok (key, is_quoted, btrim rest).
(** src/decode/decoders.rs:385-391 *)
Definition bafter_hyphen (content : bytes) : result bytes :=
  if bat (N.eqb cMINUS) content 0 && bat (N.eqb cSPACE) content 1 then bfrom content 2 else Err EExpectedListItem.
(** src/decode/decoders.rs:503-512 (and 284-303 of async_decode.rs) *)
Definition bis_key_value_line (content : bytes) : result bool :=
  if bstarts cDQ content then
    let? closing := bfind_closing_quote content 0 in
    match closing with
    | Some closing => let? r := bfrom content (closing + 1) in Ok (bcontains cCOLON r)
    | None => Ok false
    end
  else Ok (bcontains cCOLON content).
(** src/decode/validation.rs:103-121 *)
Definition bis_data_row (content : bytes) (delimiter : char) : result bool :=
  let? colon := bfind_unquoted_char content cCOLON 0 in
  let? delim := bfind_unquoted_char content delimiter 0 in
  Ok (match colon, delim with
      | None, _ => true
      | Some colon, Some delim => delim <? colon
      | Some _, None => false
      end).

(** * src/decode/scanner.rs *)

(** The loops of src/decode/scanner.rs:53-55 and 75-79. *)
Fixpoint bcount (p : N -> bool) (fuel : nat) (b : bytes) (i : nat) : nat :=
  match fuel with
  | O => i
  | S fuel => if bat p b i then bcount p fuel b (i + 1) else i
  end.
(** src/decode/scanner.rs:42-110: what is kept of a line: indentation, content, depth; [None] for a
    blank line. *)
Definition bparse_line (line_number : nat) (raw : bytes) (indent_size : nat) (strict : bool) : result (option (nat * bytes * nat)) :=
  let indent := bcount (N.eqb cSPACE) (length raw) raw 0 in
  let? content := bfrom raw indent in
  if is_empty (btrim content) then Ok None
  else
    let depth := compute_depth_from_indent indent indent_size in
    let? _ :=
      (if strict then
         let whitespace_end := bcount (fun x => (x =? cSPACE)%N || (x =? cTAB)%N) (length raw) raw 0 in
         let? ws := bto raw whitespace_end in
         if bcontains cTAB ws then Err (ETabIndent line_number)
         else match indent_size with
              | O => if 0 <? indent then Err (EIndentZero line_number indent) else Ok tt
              | _ => if (0 <? indent) && negb (Nat.modulo indent indent_size =? 0)
                     then Err (EIndentMultiple line_number indent_size indent) else Ok tt
              end
       else Ok tt) in
    Ok (Some (indent, content, depth)).
