(** src/shared: literal classification, escaping, quote-aware scanning, key and string
    validation.  Definitions only. *)
From Verif Require Import Chars Floats Json.

(** src/shared/literal_utils.rs:4-6 *)
Definition is_boolean_or_null_literal (s : str) : bool :=
  str_eqb s (lit "true") || str_eqb s (lit "false") || str_eqb s (lit "null").

(** The tail shared by both numeric predicates: optional fraction, optional exponent, end of text
    (src/shared/literal_utils.rs:43-74 and 113-142).  [None] from the fraction or exponent part is
    the early [return false]. *)
Definition num_frac (s : str) : option str :=
  match s with
  | c :: r => if c =? cDOT then
                let '(ds, r') := span_digits r in
                if is_empty ds then None else Some r'
              else Some s
  | [] => Some []
  end.
Definition num_exp (s : str) : option str :=
  match s with
  | c :: r =>
      if (c =? cLE) || (c =? cUE) then
        let r := match r with
                 | x :: r' => if (x =? cPLUS) || (x =? cMINUS) then r' else r
                 | [] => []
                 end in
        let '(ds, r') := span_digits r in
        if is_empty ds then None else Some r'
      else Some s
  | [] => Some []
  end.
Definition num_tail (s : str) : bool :=
  match num_frac s with
  | None => false
  | Some r => match num_exp r with
              | None => false
              | Some r' => is_empty r'
              end
  end.

(** src/shared/literal_utils.rs:9-82 *)
Definition is_numeric_like (value : str) : bool :=
  let t := trim value in
  match t with
  | [] => false
  | c :: r =>
      let body := if c =? cMINUS then r else t in
      let '(ds, rest) := span_digits body in
      match ds with
      | [] => false
      | d :: ds' =>
          if negb (is_empty ds') && (d =? cZERO) then true
          else num_tail rest
      end
  end.

(** src/shared/literal_utils.rs:85-145 *)
Definition is_numeric_literal (value : str) : bool :=
  let t := trim value in
  match t with
  | [] => false
  | c :: r =>
      let body := if c =? cMINUS then r else t in
      match body with
      | [] => false
      | d :: b =>
          let rest :=
            if d =? cZERO then
              match b with
              | x :: _ => if is_digit x then None else Some b
              | [] => Some b
              end
            else if is_digit d then Some (snd (span_digits body))
            else None in
          match rest with
          | None => false
          | Some rest =>
              num_tail rest &&
              match parse_f64 t with
              | Some x => f64_is_finite x
              | None => false
              end
          end
      end
  end.

(** src/shared/string_utils.rs:4-32 *)
Definition escape_char (c : char) : str :=
  if c =? cBSLASH then [cBSLASH; cBSLASH]
  else if c =? cDQ then [cBSLASH; cDQ]
  else if c =? cLF then [cBSLASH; cLN]
  else if c =? cCR then [cBSLASH; cLR]
  else if c =? cTAB then [cBSLASH; cLT]
  else [c].
Definition escape_string (s : str) : str := flat_map escape_char s.

(** src/shared/string_utils.rs:40-65 *)
Fixpoint unescape_string (s : str) : result str :=
  match s with
  | [] => Ok []
  | c :: r =>
      if c =? cBSLASH then
        match r with
        | [] => Err (EInvalidEscape None)
        | n :: r' =>
            let? out :=
              (if n =? cLN then Ok cLF
               else if n =? cLT then Ok cTAB
               else if n =? cLR then Ok cCR
               else if n =? cBSLASH then Ok cBSLASH
               else if n =? cDQ then Ok cDQ
               else Err (EInvalidEscape (Some n))) in
            let? rest := unescape_string r' in
            Ok (out :: rest)
        end
      else let? rest := unescape_string r in Ok (c :: rest)
  end.

(** src/shared/string_utils.rs:68-87.  [scan_quote s i]: continue the scan with [s] the text
    from index [i]. *)
Fixpoint scan_quote (s : str) (i : nat) : option nat :=
  match s with
  | [] => None
  | c :: r =>
      match r with
      | _ :: r' => if c =? cBSLASH then scan_quote r' (S (S i))
                   else if c =? cDQ then Some i else scan_quote r (S i)
      | [] => if c =? cDQ then Some i else None
      end
  end.
Definition find_closing_quote (content : str) (start : nat) : option nat :=
  if Nat.leb (length content) start then None
  else scan_quote (skipn (S start) content) (S start).

(** src/shared/string_utils.rs:90-120 *)
Fixpoint scan_unquoted (target : char) (s : str) (in_quotes : bool) (i : nat) : option nat :=
  match s with
  | [] => None
  | c :: r =>
      let step :=
        if c =? cDQ then scan_unquoted target r (negb in_quotes) (S i)
        else if (c =? target) && negb in_quotes then Some i
        else scan_unquoted target r in_quotes (S i) in
      match r with
      | _ :: r' => if in_quotes && (c =? cBSLASH) then scan_unquoted target r' in_quotes (S (S i))
                   else step
      | [] => step
      end
  end.
Definition find_unquoted_char (content : str) (target : char) (start : nat) : option nat :=
  if 128 <=? target then None
  else scan_unquoted target (skipn start content) false start.

(** src/shared/validation.rs:5-23 *)
Definition is_valid_unquoted_key (key : str) : bool :=
  match key with
  | [] => false
  | f :: r => (is_alpha f || (f =? cUNDER)) &&
              forallb (fun c => is_alnum c || (c =? cUNDER) || (c =? cDOT)) r
  end.

(** src/shared/validation.rs:26-44 *)
Definition is_identifier_segment (seg : str) : bool :=
  match seg with
  | [] => false
  | f :: r => (is_alpha f || (f =? cUNDER)) &&
              forallb (fun c => is_alnum c || (c =? cUNDER)) r
  end.

(** src/shared/validation.rs:47-85 *)
Definition is_safe_unquoted (value : str) (delimiter : char) : bool :=
  if is_empty value then false
  else if negb (str_eqb (trim value) value) then false
  else if is_boolean_or_null_literal value || is_numeric_like value then false
  else if contains cCOLON value then false
  else if contains cDQ value || contains cBSLASH value then false
  else if contains cLBRACK value || contains cRBRACK value
          || contains cLBRACE value || contains cRBRACE value then false
  else if contains cLF value || contains cCR value || contains cTAB value then false
  else if contains delimiter value then false
  else negb (starts_with cMINUS value).
