(** src/decode/scanner.rs.  Definitions only. *)
From Verif Require Import Chars Floats Json.

(** src/decode/scanner.rs:6-13 *)
Record parsed_line := PLine {
  pl_raw : str;
  pl_indent : nat;
  pl_content : str;
  pl_depth : nat;
  pl_line : nat
}.

(** src/decode/scanner.rs:15-20 *)
Record blank_line := BLine { bl_line : nat; bl_indent : nat; bl_depth : nat }.

(** src/decode/scanner.rs:22-34 *)
Record scan_state := ScanState { ss_line : nat; ss_blanks : list blank_line }.
Definition create_scan_state : scan_state := ScanState 0 [].

(** src/decode/scanner.rs:133-138 *)
Definition compute_depth_from_indent (indent indent_size : nat) : nat :=
  match indent_size with O => O | _ => Nat.div indent indent_size end.

(** The two loops of src/decode/scanner.rs:51-55 and 74-79. *)
Fixpoint count_spaces (s : str) : nat :=
  match s with c :: r => if c =? cSPACE then S (count_spaces r) else O | [] => O end.
Fixpoint count_space_tab (s : str) : nat :=
  match s with
  | c :: r => if (c =? cSPACE) || (c =? cTAB) then S (count_space_tab r) else O
  | [] => O
  end.

(** src/decode/scanner.rs:42-110 *)
Definition parse_line_incremental (raw : str) (st : scan_state) (indent_size : nat)
           (strict : bool) : result (option parsed_line * scan_state) :=
  let line_number := S (ss_line st) in
  let indent := count_spaces raw in
  let content := skipn indent raw in
  let depth := compute_depth_from_indent indent indent_size in
  if is_empty (trim content) then
    Ok (None, ScanState line_number (ss_blanks st ++ [BLine line_number indent depth]))
  else
    let? _ :=
      (if strict then
         if contains cTAB (firstn (count_space_tab raw) raw) then Err (ETabIndent line_number)
         else match indent_size with
              | O => if Nat.ltb 0 indent then Err (EIndentZero line_number indent) else Ok tt
              | _ => if Nat.ltb 0 indent && negb (Nat.eqb (Nat.modulo indent indent_size) 0)
                     then Err (EIndentMultiple line_number indent_size indent) else Ok tt
              end
       else Ok tt) in
    Ok (Some (PLine raw indent content depth line_number), ScanState line_number (ss_blanks st)).

(** src/decode/scanner.rs:117-130 *)
Fixpoint parse_lines_sync (source : list str) (indent_size : nat) (strict : bool)
         (st : scan_state) : result (list parsed_line * scan_state) :=
  match source with
  | [] => Ok ([], st)
  | raw :: r =>
      let? (p, st1) := parse_line_incremental raw st indent_size strict in
      let? (ls, st2) := parse_lines_sync r indent_size strict st1 in
      Ok (match p with Some l => l :: ls | None => ls end, st2)
  end.

(** src/decode/scanner.rs:140-197.  The index into the vector of lines is represented by the
    lines not yet consumed; the blank lines, which never change, are kept by the decoder
    context. *)
Record cursor := Cursor { cu_rest : list parsed_line; cu_last : option parsed_line }.
Definition peek (c : cursor) : option parsed_line := hd_error (cu_rest c).
Definition advance (c : cursor) : cursor :=
  match cu_rest c with
  | l :: r => Cursor r (Some l)
  | [] => c
  end.
Definition at_end (c : cursor) : bool := is_empty (cu_rest c).
