(** src/cli/mod.rs, src/cli/args.rs, src/main.rs: the command line tool, with its input and output.
    Definitions only.

    The operating system is a list of replies, one for each call: whatever the replies are, however
    few bytes a write takes, wherever the process is stopped, is covered by some list.  When the
    list is used up the process has been killed at that point.  Simplified: reading a file or
    standard input is one call; a message on standard error is written as one text (std writes its
    parts one after the other); what the runtime says about a panic is left out; a closed standard
    output or standard error (which std ignores) is left out; a killed process keeps what was
    written, the order in which several files reach the disk does not matter because only one is
    written. *)
From Coq Require Import SpecFloat.
From Verif Require Import Chars Floats Json Shared EncPrim Normalize Folding Encoders Replacer EncodeApi
  Scanner Parser DecValidation Decoders EventBuilder Expand DecodeApi JsonText SpecJson Serde Utf8 ErrText.

Local Open Scope nat_scope.

(** * src/cli/args.rs *)

(** src/cli/args.rs:16-59; clap checks that [a_indent] is at most 16 and that not both flags are set,
    and calls [parse_delimiter]. *)
Record args := Args {
  a_input : option str;
  a_output : option str;
  a_encode : bool;
  a_decode : bool;
  a_delimiter : char;
  a_indent : nat;
  a_no_strict : bool;
  a_key_folding : key_folding_mode;
  a_flatten_depth : option N;
  a_expand_paths : expand_paths_mode;
  a_stats : bool
}.

(** src/cli/args.rs:73-82 *)
Definition parse_delimiter (s : str) : option char :=
  if str_eqb s (lit ",") || str_eqb s (lit "comma") then Some cCOMMA
  else if str_eqb s (lit "|") || str_eqb s (lit "pipe") then Some cPIPE
  else if str_eqb s (lit "\t") || str_eqb s [cTAB] || str_eqb s (lit "tab") then Some cTAB
  else None.

(** std::path::Path::file_name and extension on Unix: components are separated by slashes, empty
    ones and single dots are skipped; the extension follows the last dot unless that dot is the first
    character. *)
Definition components (path : str) : list str :=
  filter (fun c => negb (is_empty c) && negb (str_eqb c [cDOT])) (split_on 47%N path).
Definition file_name (path : str) : option str :=
  match rev (components path) with
  | [] => None
  | c :: _ => if str_eqb c [cDOT; cDOT] then None else Some c
  end.
Definition extension (path : str) : option str :=
  match file_name path with
  | None => None
  | Some f =>
      match rev (split_on cDOT f) with
      | after :: before :: r => if is_empty (join cDOT (rev (before :: r))) then None else Some after
      | _ => None
      end
  end.
(** str::to_lowercase, on ASCII; no other character has one of the letters of "json" and "toon" as
    its lower case form. *)
Definition lower (c : char) : char := if ((65 <=? c) && (c <=? 90))%N then (c + 32)%N else c.

Inductive mode := MEncode | MDecode.
(** src/cli/args.rs:87-111 *)
Definition detect_mode (a : args) : mode :=
  if a_encode a then MEncode
  else if a_decode a then MDecode
  else match a_input a with
       | Some path =>
           match extension path with
           | Some ext =>
               let ext := map lower ext in
               if str_eqb ext (lit "json") then MEncode
               else if str_eqb ext (lit "toon") then MDecode
               else MEncode
           | None => MEncode
           end
       | None => MEncode
       end.
(** src/cli/args.rs:114-117 *)
Definition is_stdin (a : args) : bool :=
  match a_input a with None => true | Some p => str_eqb p (lit "-") end.

(** * The outside *)

(** [w_pending]: what was written to standard output but is still in the buffer of the process. *)
Record world := World {
  w_files : str -> option bytes;
  w_stdin : bytes;
  w_stdout : bytes;
  w_stderr : bytes;
  w_pending : bytes
}.
(** The answer to a call: done, and for a write how many bytes; interrupted, try again; an error,
    with the text the operating system has for it. *)
Inductive reply := RDone (n : nat) | RInterrupted | RError (why : str).

(** src/error.rs:161-197: the operations errors are reported for *)
Inductive operation := OpReadFile (p : str) | OpReadStdin | OpCreateFile (p : str) | OpWriteFile (p : str) | OpWriteStdout.
Inductive failure :=
| FConvert (e : err)
| FIo (op : operation) (why : str)
| FPanic.
Inductive outcome (A : Type) :=
| Ret (a : A)
| Raise (f : failure)
| Killed.
Arguments Ret {A}. Arguments Raise {A}. Arguments Killed {A}.

Definition io (A : Type) := world -> list reply -> outcome A * world * list reply.
Definition iret {A} (a : A) : io A := fun w env => (Ret a, w, env).
Definition iraise {A} (f : failure) : io A := fun w env => (Raise f, w, env).
Definition ibind {A B} (m : io A) (f : A -> io B) : io B := fun w env =>
  let '(o, w, env) := m w env in
  match o with
  | Ret a => f a w env
  | Raise e => (Raise e, w, env)
  | Killed => (Killed, w, env)
  end.
Definition lift {A} (r : result A) : io A := match r with Ok a => iret a | Err e => iraise (FConvert e) end.

Inductive target := TFile (path : str) | TStdout | TStderr.
Definition set_file (f : str -> option bytes) (p : str) (b : bytes) : str -> option bytes :=
  fun q => if str_eqb q p then Some b else f q.
Definition append (t : target) (b : bytes) (w : world) : world :=
  match t with
  | TFile p => World (set_file (w_files w) p (match w_files w p with Some c => c ++ b | None => b end))
                     (w_stdin w) (w_stdout w) (w_stderr w) (w_pending w)
  | TStdout => World (w_files w) (w_stdin w) (w_stdout w ++ b) (w_stderr w) (w_pending w)
  | TStderr => World (w_files w) (w_stdin w) (w_stdout w) (w_stderr w ++ b) (w_pending w)
  end.
(** The operation a failed write is reported as, src/cli/mod.rs:139-220. *)
Definition writing (t : target) : operation :=
  match t with TFile p => OpWriteFile p | _ => OpWriteStdout end.

(** std::io: the loop of Write::write_all and of BufWriter::flush_buf: write until nothing is left,
    retry when interrupted, an answer of zero bytes is an error with the text [zero].  Also returns
    what is left. *)
Fixpoint drain (zero : str) (t : target) (b : bytes) (w : world) (env : list reply) : outcome unit * bytes * world * list reply :=
  match b with
  | [] => (Ret tt, [], w, env)
  | _ => match env with
         | [] => (Killed, b, w, [])
         | RDone n :: env =>
             let k := Nat.min n (length b) in
             if k =? 0 then (Raise (FIo (writing t) zero), b, w, env)
             else drain zero t (skipn k b) (append t (firstn k b) w) env
         | RInterrupted :: env => drain zero t b w env
         | RError why :: env => (Raise (FIo (writing t) why), b, w, env)
         end
  end.
Definition zero_whole : str := lit "failed to write whole buffer".
Definition zero_buffered : str := lit "failed to write the buffered data".
(** File::write_all *)
Definition write_all (t : target) (b : bytes) : io unit := fun w env =>
  let '(o, _, w, env) := drain zero_whole t b w env in (o, w, env).

(** BufWriter<File>::write_all, with the buffer as state. *)
Definition buffered (A : Type) := bytes -> world -> list reply -> outcome A * bytes * world * list reply.
Definition buf_write_all (cap : nat) (t : target) (b : bytes) : buffered unit := fun buf w env =>
  if length b <? cap - length buf then (Ret tt, buf ++ b, w, env)
  else
    let '(o, buf, w, env) := if cap - length buf <? length b then drain zero_buffered t buf w env else (Ret tt, buf, w, env) in
    match o with
    | Ret _ =>
        if cap <=? length b then
          let '(o, _, w, env) := drain zero_whole t b w env in (o, buf, w, env)
        else (Ret tt, buf ++ b, w, env)
    | o => (o, buf, w, env)
    end.
(** Up to and including the last line feed, and the rest. *)
Fixpoint split_last_lf (b : bytes) : bytes * bytes :=
  match b with
  | [] => ([], [])
  | x :: r => match split_last_lf r with
              | ([], tail) => if (x =? cLF)%N then ([x], tail) else ([], x :: tail)
              | (lines, tail) => (x :: lines, tail)
              end
  end.
(** LineWriter::write_all (standard output): everything up to the last line feed is written through. *)
Definition line_write_all (cap : nat) (t : target) (b : bytes) : buffered unit := fun buf w env =>
  match split_last_lf b with
  | ([], _) =>
      let '(o, buf, w, env) := match rev buf with
                               | x :: _ => if (x =? cLF)%N then drain zero_buffered t buf w env else (Ret tt, buf, w, env)
                               | [] => (Ret tt, buf, w, env)
                               end in
      match o with
      | Ret _ => buf_write_all cap t b buf w env
      | o => (o, buf, w, env)
      end
  | (lines, tail) =>
      let '(o, buf, w, env) :=
        if is_empty buf then let '(o, _, w, env) := drain zero_whole t lines w env in (o, buf, w, env)
        else
          let '(o, buf, w, env) := buf_write_all cap t lines buf w env in
          match o with
          | Ret _ => drain zero_buffered t buf w env
          | o => (o, buf, w, env)
          end in
      match o with
      | Ret _ => buf_write_all cap t tail buf w env
      | o => (o, buf, w, env)
      end
  end.
(** Several writes, up to the first error. *)
Fixpoint write_pieces (wr : bytes -> buffered unit) (pieces : list bytes) : buffered unit := fun buf w env =>
  match pieces with
  | [] => (Ret tt, buf, w, env)
  | b :: r =>
      let '(o, buf, w, env) := wr b buf w env in
      match o with
      | Ret _ => write_pieces wr r buf w env
      | o => (o, buf, w, env)
      end
  end.
(** A buffered writer going out of scope, after success or error: what is left is written, the
    result of that is ignored. *)
Definition drop_into (t : target) (m : buffered unit) : io unit := fun w env =>
  let '(o, buf, w, env) := m [] w env in
  match o with
  | Killed => (Killed, w, env)
  | _ => let '(o', _, w, env) := drain zero_buffered t buf w env in
         match o' with
         | Killed => (Killed, w, env)
         | _ => (o, w, env)
         end
  end.
(** Standard output: its buffer lives as long as the process. *)
Definition with_pending (w : world) (b : bytes) : world := World (w_files w) (w_stdin w) (w_stdout w) (w_stderr w) b.
Definition on_stdout (m : buffered unit) : io unit := fun w env =>
  let '(o, buf, w, env) := m (w_pending w) w env in (o, with_pending w buf, env).

Section Run.
(** How serde_json reads literals that are not integers, what it says about texts that are not JSON,
    how it prints numbers; the sizes of the two buffers (std: 8192 and 1024). *)
Variable rf : str -> option f64.
Variable complaint : str -> str.
Variable st : num_style.
Variables file_cap line_cap : nat.

(** File::create: the file is there and empty, or there is an error. *)
Definition create (p : str) : io unit := fun w env =>
  match env with
  | [] => (Killed, w, [])
  | RError why :: env => (Raise (FIo (OpCreateFile p) why), w, env)
  | _ :: env => (Ret tt, World (set_file (w_files w) p []) (w_stdin w) (w_stdout w) (w_stderr w) (w_pending w), env)
  end.
(** src/cli/mod.rs:115-137: the bytes, which have to be UTF-8. *)
Definition not_found : str := lit "No such file or directory (os error 2)".
Definition not_utf8 : str := lit "stream did not contain valid UTF-8".
Definition read_input (a : args) : io str := fun w env =>
  let op := if is_stdin a then OpReadStdin else match a_input a with Some p => OpReadFile p | None => OpReadStdin end in
  match env with
  | [] => (Killed, w, [])
  | RError why :: env => (Raise (FIo op why), w, env)
  | _ :: env =>
      let data := if is_stdin a then Some (w_stdin w)
                  else match a_input a with Some p => w_files w p | None => None end in
      match data with
      | None => (Raise (FIo op not_found), w, env)
      | Some b => match from_utf8 b with
                  | Some s => (Ret s, w, env)
                  | None => (Raise (FIo op not_utf8), w, env)
                  end
      end
  end.
(** eprintln! panics when standard error cannot be written. *)
Definition say (text : str) : io unit := fun w env =>
  let '(o, w, env) := write_all TStderr (utf8 (text ++ [cLF])) w env in
  match o with
  | Raise _ => (Raise FPanic, w, env)
  | o => (o, w, env)
  end.

(** src/cli/mod.rs:139-154 *)
Definition write_output (a : args) (data : bytes) : io unit :=
  match a_output a with
  | Some path => ibind (create path) (fun _ =>
                 ibind (write_all (TFile path) data) (fun _ =>
                        write_all (TFile path) [cLF]))
  | None => on_stdout (write_pieces (line_write_all line_cap TStdout) [data; [cLF]])
  end.
(** src/cli/mod.rs:156-191: line feeds between the lines and after the last one. *)
Fixpoint line_pieces (i : nat) (lines : list str) : list bytes :=
  match lines with
  | [] => [[cLF]]
  | l :: r => (if 0 <? i then [[cLF]] else []) ++ utf8 l :: line_pieces (S i) r
  end.
Definition write_buffered (a : args) (pieces : list bytes) : io unit :=
  match a_output a with
  | Some path => ibind (create path) (fun _ => drop_into (TFile path) (write_pieces (buf_write_all file_cap (TFile path)) pieces))
  | None => on_stdout (write_pieces (line_write_all line_cap TStdout) pieces)
  end.
Definition write_lines (a : args) (lines : list str) : io unit := write_buffered a (line_pieces 0 lines).
(** src/cli/mod.rs:193-220 *)
Definition write_chunks (a : args) (chunks : list str) : io unit := write_buffered a (map utf8 chunks ++ [[cLF]]).

(** src/cli/mod.rs:234-239 *)
Fixpoint words (inside : bool) (s : str) : nat :=
  match s with
  | [] => 0
  | c :: r => if is_ws c then words false r else (if inside then 0 else 1) + words true r
  end.
Definition estimate_tokens (text : str) : nat :=
  Nat.max (Nat.max (length (filter (fun c => negb (is_ws c)) text) / 4) (words false text)) 1.

(** Arithmetic on f64 as IEEE 754 defines it: the exact result, rounded.  Only positive numbers occur. *)
Definition f64_of_nat (n : nat) : spec_float := round_q false (Z.of_nat n) 1.
Definition f64_quotient (x y : spec_float) : spec_float :=
  match x, y with
  | S754_finite _ m e, S754_finite _ m' e' =>
      let '(n, d) := f64_frac m e in
      let '(n', d') := f64_frac m' e' in
      round_q false (n * d') (d * n')
  | S754_zero _, S754_finite _ _ _ => S754_zero false
  | _, _ => S754_nan
  end.
Definition f64_times (x : spec_float) (k : Z) : spec_float :=
  match x with
  | S754_finite _ m e => let '(n, d) := f64_frac m e in round_q false (n * k) d
  | S754_zero _ => S754_zero false
  | _ => S754_nan
  end.
(** [{x:.1}]: tenths, rounded half to even. *)
Definition tenths (x : spec_float) : N :=
  match x with
  | S754_finite _ m e => let '(n, d) := f64_frac m e in Z.to_N (div_half_even (n * 10) d)
  | _ => 0%N
  end.
Definition one_decimal (x : spec_float) : str :=
  dec_of_N (tenths x / 10) ++ [cDOT] ++ dec_of_N (tenths x mod 10).
(** src/cli/mod.rs:53-60 *)
Definition percent (diff json_tokens : nat) : spec_float :=
  if 0 <? json_tokens then f64_times (f64_quotient (f64_of_nat diff) (f64_of_nat json_tokens)) 100 else S754_zero false.

(** src/cli/mod.rs:63-66 and 222-230, 73-78, 104-110 *)
Definition arrow : str := [32; 8594; 32]%N.
Definition estimates_text (json_tokens toon_tokens : nat) : str :=
  cLF :: lit "Token estimates: ~" ++ nat_num json_tokens ++ lit " (JSON)" ++ arrow ++ lit "~" ++ nat_num toon_tokens ++ lit " (TOON)".
Definition saved_text (diff json_tokens : nat) : str :=
  lit "Saved ~" ++ nat_num diff ++ lit " tokens (-" ++ one_decimal (percent diff json_tokens) ++ lit "%)".
Definition format_input_label (a : args) : str :=
  if is_stdin a then lit "stdin" else match a_input a with Some p => p | None => lit "stdin" end.
Definition done_text (verb : str) (a : args) (output_path : str) : str :=
  verb ++ lit " `" ++ format_input_label a ++ lit "`" ++ arrow ++ lit "`" ++ output_path ++ lit "`".

(** src/cli/mod.rs:34-43 and 89-97 *)
Definition cli_encode_options (a : args) : encode_options :=
  EncOpts (Some (a_indent a)) (Some (a_delimiter a)) (Some (a_key_folding a)) (a_flatten_depth a) None.
Definition cli_decode_options (a : args) : decode_options :=
  DecOpts (Some (a_indent a)) (Some (negb (a_no_strict a))) (Some (a_expand_paths a)).

(** src/cli/mod.rs:29-83 *)
Definition run_encode (a : args) : io unit :=
  ibind (read_input a) (fun input =>
  ibind (lift (encode_to_toon_lines rf 0 input (Some (cli_encode_options a)))) (fun toon_lines =>
  ibind (if a_stats a then
           let toon_output := join cLF toon_lines in
           ibind (write_output a (utf8 toon_output)) (fun _ =>
           let json_tokens := estimate_tokens input in
           let toon_tokens := estimate_tokens toon_output in
           let diff := json_tokens - toon_tokens in
           ibind (say (estimates_text json_tokens toon_tokens)) (fun _ =>
           if 0 <? diff then say (saved_text diff json_tokens) else iret tt))
         else write_lines a toon_lines) (fun _ =>
  match a_output a with Some path => say (done_text (lit "Encoded") a path) | None => iret tt end))).
(** src/cli/mod.rs:85-113 *)
Definition run_decode (a : args) : io unit :=
  ibind (read_input a) (fun input =>
  ibind (lift (decode_to_json_chunks st input (Some (cli_decode_options a)))) (fun json_chunks =>
  ibind (write_chunks a json_chunks) (fun _ =>
  match a_output a with Some path => say (done_text (lit "Decoded") a path) | None => iret tt end))).
(** src/cli/mod.rs:19-27 *)
Definition run (a : args) : io unit :=
  match detect_mode a with
  | MEncode => run_encode a
  | MDecode => run_decode a
  end.

(** src/error.rs:165-202: the error of a system call that failed *)
Definition io_error (op : operation) (why : str) : toon_error :=
  match op with
  | OpReadFile p => TIo (lit "Failed to read file") (Some p) why
  | OpReadStdin => TIo (lit "Failed to read stdin") None why
  | OpCreateFile p => TIo (lit "Failed to create file") (Some p) why
  | OpWriteFile p => TIo (lit "Failed to write to file") (Some p) why
  | OpWriteStdout => TIo (lit "Failed to write to stdout") None why
  end.
(** src/error.rs:216-220 *)
Definition json_parse (why : str) : toon_error := TJson (lit "Failed to parse JSON: " ++ why).
(** The error of a failure.  [input] is what was to be converted. *)
Definition failure_error (input : str) (f : failure) : option toon_error :=
  match f with
  | FIo op why => Some (io_error op why)
  | FConvert EJsonParse => Some (json_parse (complaint input))
  | FConvert e => raised e
  | FPanic => None
  end.
Definition failure_text (input : str) (f : failure) : str :=
  match failure_error input f with Some t => display t | None => [] end.
(** What was read, for the text above. *)
Definition input_text (a : args) (w : world) : str :=
  match (if is_stdin a then Some (w_stdin w) else match a_input a with Some p => w_files w p | None => None end) with
  | Some b => match from_utf8 b with Some s => s | None => [] end
  | None => []
  end.
(** The end of the process: the buffer of standard output is written, errors are ignored. *)
Definition leave (status : N) (w : world) (env : list reply) : option N * world * list reply :=
  let '(o, rest, w, env) := drain zero_buffered TStdout (w_pending w) w env in
  match o with
  | Killed => (None, with_pending w rest, env)
  | _ => (Some status, with_pending w [], env)
  end.
(** src/main.rs:1-7 and the runtime: the exit status, if the process is not killed.  A panic aborts
    (Cargo.toml:84). *)
Definition main (a : args) (w : world) (env : list reply) : option N * world * list reply :=
  let '(o, w', env) := run a (with_pending w []) env in
  match o with
  | Ret _ => leave 0 w' env
  | Raise FPanic => (Some 134%N, w', env)
  | Raise f =>
      let '(o, w', env) := say (failure_text (input_text a w) f) w' env in
      match o with
      | Ret _ => leave 1 w' env
      | Raise _ => (Some 134%N, w', env)
      | Killed => (None, w', env)
      end
  | Killed => (None, w', env)
  end.
End Run.
