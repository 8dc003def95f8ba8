(** src/decode/validation.rs.  Definitions only. *)
From Verif Require Import Chars Floats Json Shared Scanner Parser.

(** src/shared/constants.rs:1-2 *)
Definition LIST_ITEM_MARKER : str := [cMINUS].
Definition LIST_ITEM_PREFIX : str := [cMINUS; cSPACE].

(** src/decode/validation.rs:12-24 *)
Definition assert_expected_count (what : counted) (actual expected : N) (strict : bool) : result unit :=
  if strict && negb (actual =? expected) then Err (ECount what expected actual) else Ok tt.

(** src/decode/validation.rs:31-47 *)
Definition validate_no_extra_list_items (next : option parsed_line) (item_depth : nat)
           (expected_count : N) (strict : bool) : result unit :=
  match next with
  | Some line =>
      if strict && Nat.eqb (pl_depth line) item_depth
         && starts_with_str LIST_ITEM_PREFIX (pl_content line)
      then Err (EExtraItems expected_count) else Ok tt
  | None => Ok tt
  end.

(** src/decode/validation.rs:103-121 *)
Definition is_data_row (content : str) (delimiter : char) : bool :=
  match find_unquoted_char content cCOLON 0, find_unquoted_char content delimiter 0 with
  | None, _ => true
  | Some colon, Some delim => Nat.ltb delim colon
  | Some _, None => false
  end.

(** src/decode/validation.rs:54-72 *)
Definition validate_no_extra_tabular_rows (next : option parsed_line) (row_depth : nat)
           (delimiter : char) (expected_count : N) (strict : bool) : result unit :=
  match next with
  | Some line =>
      if strict && Nat.eqb (pl_depth line) row_depth
         && negb (starts_with_str LIST_ITEM_PREFIX (pl_content line))
         && is_data_row (pl_content line) delimiter
      then Err (EExtraRows expected_count) else Ok tt
  | None => Ok tt
  end.

(** src/decode/validation.rs:79-101 *)
Definition validate_no_blank_lines_in_range (what : counted) (start_line end_line : nat)
           (blanks : list blank_line) (strict : bool) : result unit :=
  let inside b := Nat.ltb start_line (bl_line b) && Nat.ltb (bl_line b) end_line in
  if strict && existsb inside blanks
  then Err (EBlankInArray what (match find inside blanks with Some b => bl_line b | None => 0%nat end))
  else Ok tt.

(** The [if let (Some(start), Some(end))] around the call, src/decode/decoders.rs:284-294 and
    348-358. *)
Definition validate_blank_range (what : counted) (range : option (nat * nat)) (blanks : list blank_line)
           (strict : bool) : result unit :=
  match range with
  | Some (s, e) => validate_no_blank_lines_in_range what s e blanks strict
  | None => Ok tt
  end.
