(** What the command line tool should do.  Definitions only. *)
From Coq Require Import QArith Qabs.
From Verif Require Import Chars Floats Json Shared Folding EncodeApi DecodeApi JsonText SpecJson JsonGrammar SpecSerde Serde Utf8 Cli ErrText.

Local Open Scope nat_scope.

Definition prefix {A} (p s : list A) : Prop := exists r, s = p ++ r.

(** * Paths *)

(** The name of the file ends in a dot and [e], and there is something before the dot. *)
Definition slash : char := 47%N.
Inductive trailing : str -> Prop :=
| tr_nil : trailing []
| tr_slash r : trailing r -> trailing (slash :: r)
| tr_dot r : trailing r -> trailing (slash :: cDOT :: r).
Definition has_extension (path e : str) : Prop :=
  exists dir base tail, path = dir ++ base ++ cDOT :: e ++ tail /\
    (dir = [] \/ exists d, dir = d ++ [slash]) /\
    base <> [] /\ ~ In slash base /\ ~ In slash e /\ ~ In cDOT e /\ trailing tail /\ (base ++ cDOT :: e <> [cDOT; cDOT]).
(** Equal but for the case of ASCII letters. *)
Definition same_letter (c d : char) : Prop :=
  c = d \/ (65 <= c /\ c <= 90 /\ d = c + 32)%N \/ (65 <= d /\ d <= 90 /\ c = d + 32)%N.

(** * What is delivered *)

(** Decoding is asked for by the flag, or by the extension toon unless the other flag is given. *)
Definition decodes (a : args) : Prop :=
  a_encode a = false /\ (a_decode a = true \/ exists p e, a_input a = Some p /\ has_extension p e /\ Forall2 same_letter e (lit "toon")).
(** The text the tool should deliver for an input: the converted document and a line feed. *)
Definition delivers (rf : str -> option f64) (st : num_style) (a : args) (input : str) (out : bytes) : Prop :=
  (~ decodes a /\ exists ls,
     encode_to_toon_lines rf 0 input
       (Some (EncOpts (Some (a_indent a)) (Some (a_delimiter a)) (Some (a_key_folding a)) (a_flatten_depth a) None)) = Ok ls /\
     out = utf8 (join cLF ls ++ [cLF])) \/
  (decodes a /\ exists cs,
     decode_to_json_chunks st input
       (Some (DecOpts (Some (a_indent a)) (Some (if a_no_strict a then false else true)) (Some (a_expand_paths a)))) = Ok cs /\
     out = utf8 (concat cs ++ [cLF])).
(** No input given, or a dash: standard input is read. *)
Definition from_stdin (a : args) : Prop := a_input a = None \/ a_input a = Some (lit "-").
(** The input the tool reads. *)
Definition reads (a : args) (w : world) (input : str) : Prop :=
  exists b, from_utf8 b = Some input /\ (from_stdin a -> b = w_stdin w) /\
    (forall p, a_input a = Some p -> p <> lit "-" -> w_files w p = Some b).

(** * The outside *)

(** Nothing outside has changed; only standard output; only one file. *)
Definition unchanged (w w' : world) : Prop :=
  (forall p, w_files w' p = w_files w p) /\ w_stdin w' = w_stdin w /\ w_stdout w' = w_stdout w.
Definition only_stdout (w w' : world) (added : bytes) : Prop :=
  (forall p, w_files w' p = w_files w p) /\ w_stdin w' = w_stdin w /\ w_stdout w' = w_stdout w ++ added.
Definition only_file (p : str) (w w' : world) (content : bytes) : Prop :=
  w_files w' p = Some content /\ (forall q, q <> p -> w_files w' q = w_files w q) /\
  w_stdin w' = w_stdin w /\ w_stdout w' = w_stdout w.
(** The output, wherever it goes, has [b] in it. *)
Definition output_is (a : args) (w w' : world) (b : bytes) : Prop :=
  match a_output a with
  | Some p => only_file p w w' b
  | None => only_stdout w w' b
  end.

(** An operating system that does everything it is asked for, though writes may take few bytes. *)
Definition steady (env : list reply) : Prop := Forall (fun r => exists n, r = RDone (S n)) env.

(** * What is said *)

(** The characters with the Unicode property White_Space. *)
Definition white (c : char) : Prop :=
  In c [9; 10; 11; 12; 13; 32; 133; 160; 5760; 8192; 8193; 8194; 8195; 8196; 8197; 8198; 8199; 8200; 8201; 8202;
        8232; 8233; 8239; 8287; 12288]%N.
(** The number of words of a text. *)
Inductive word_count : str -> nat -> Prop :=
| wc_none s : Forall white s -> word_count s 0
| wc_word a w b n : Forall white a -> w <> [] -> Forall (fun c => ~ white c) w ->
    (b = [] \/ exists c r, b = c :: r /\ white c) -> word_count b n -> word_count (a ++ w ++ b) (S n).
(** The number of characters that are not white space. *)
Inductive dark_count : str -> nat -> Prop :=
| dc_nil : dark_count [] 0
| dc_white c s n : white c -> dark_count s n -> dark_count (c :: s) n
| dc_dark c s n : ~ white c -> dark_count s n -> dark_count (c :: s) (S n).
(** The estimate: a quarter of the characters, but at least the number of words, and at least one. *)
Definition token_estimate (text : str) (n : nat) : Prop :=
  exists d k, dark_count text d /\ word_count text k /\
    (4 * n <= d \/ n = k \/ n = 1) /\ d < 4 * n + 4 /\ k <= n /\ 1 <= n.
(** [pc] is what [saved] is of [all], in percent, with one digit after the point. *)
Definition percentage (saved all : nat) (pc : str) : Prop :=
  exists whole tenth, pc = dec_of_N whole ++ [cDOT] ++ dec_of_N tenth /\ (tenth < 10)%N /\
    (Qabs (inject_Z (Z.of_N (10 * whole + tenth)) / 10 - 100 * inject_Z (Z.of_nat saved) / inject_Z (Z.of_nat all))
       <= (1 # 20) + (1 # 10 ^ 12))%Q.
Definition shows (n : nat) : str := dec_of_N (N.of_nat n).

(** The messages of a successful run.  [text] is the converted document. *)
Definition statistics (input text : str) (ms : list str) : Prop :=
  exists j t, token_estimate input j /\ token_estimate text t /\
    let first := [cLF] ++ lit "Token estimates: ~" ++ shows j ++ lit " (JSON) " ++ [8594%N] ++ lit " ~" ++ shows t ++ lit " (TOON)" in
    (j <= t /\ ms = [first]) \/
    (t < j /\ exists pc, percentage (j - t) j pc /\ ms = [first; lit "Saved ~" ++ shows (j - t) ++ lit " tokens (-" ++ pc ++ lit "%)"]).
Definition finished (a : args) (verb : str) (ms : list str) : Prop :=
  (a_output a = None /\ ms = []) \/
  exists label p, a_output a = Some p /\ (from_stdin a -> label = lit "stdin") /\ (forall q, a_input a = Some q -> q <> lit "-" -> label = q) /\
    ms = [verb ++ lit " `" ++ label ++ lit "` " ++ [8594%N] ++ lit " `" ++ p ++ lit "`"].
Definition messages (a : args) (input text : str) (ms : list str) : Prop :=
  exists stats done, ms = stats ++ done /\
    ((~ decodes a /\ a_stats a = true /\ statistics input text stats) \/
     ((decodes a \/ a_stats a = false) /\ stats = [])) /\
    ((decodes a /\ finished a (lit "Decoded") done) \/ (~ decodes a /\ finished a (lit "Encoded") done)).
Definition said (ms : list str) : bytes := concat (map (fun m => utf8 (m ++ [cLF])) ms).

(** What is said when the input cannot be read, the file cannot be created, the output cannot be
    written; [why] is the reason the operating system gives. *)
Definition cannot_read (a : args) (why m : str) : Prop :=
  (from_stdin a /\ m = lit "Failed to read stdin: " ++ why) \/
  exists p, ~ from_stdin a /\ a_input a = Some p /\ m = lit "Failed to read file '" ++ p ++ lit "': " ++ why.
Definition cannot_create (a : args) (why m : str) : Prop :=
  exists p, a_output a = Some p /\ m = lit "Failed to create file '" ++ p ++ lit "': " ++ why.
Definition cannot_write (a : args) (why m : str) : Prop :=
  (a_output a = None /\ m = lit "Failed to write to stdout: " ++ why) \/
  exists p, a_output a = Some p /\ m = lit "Failed to write to file '" ++ p ++ lit "': " ++ why.
(** The conversion fails, with this message. *)
Definition cannot_convert (complaint : str -> str) (rf : str -> option f64) (a : args) (input m : str) : Prop :=
  (~ decodes a /\ (forall t v, json_document input t -> nesting t <= 127 -> value_with (reading rf) t <> Some v) /\ m = lit "JSON error: Failed to parse JSON: " ++ complaint input) \/
  (decodes a /\ exists e,
     try_decode input (Some (DecOpts (Some (a_indent a)) (Some (if a_no_strict a then false else true)) (Some (a_expand_paths a)))) = Err e /\
     message e = Some m).
(** The reasons for failures of calls. *)
Definition refused (env : list reply) (why : str) : Prop :=
  In (RError why) env \/
  (In (RDone 0) env /\ (why = lit "failed to write whole buffer" \/ why = lit "failed to write the buffered data")).
(** There is no input, or it is not text. *)
Definition no_input (a : args) (w : world) (why : str) : Prop :=
  (why = lit "No such file or directory (os error 2)" /\ exists p, a_input a = Some p /\ p <> lit "-" /\ w_files w p = None) \/
  (why = lit "stream did not contain valid UTF-8" /\ exists b, from_utf8 b = None /\ (from_stdin a -> b = w_stdin w) /\
     (forall p, a_input a = Some p -> p <> lit "-" -> w_files w p = Some b)).
(** How a process ends that is to say [ms] on standard error and to exit with [status], when it said
    [s]: with that status only if it could say everything; with an abort only if it could not. *)
Definition ends (status : N) (ms : list str) (env : list reply) (exit : option N) (s : bytes) : Prop :=
  prefix s (said ms) /\ (exit = Some status -> s = said ms) /\
  (exit = Some status \/ (exit = Some 134%N /\ exists why, refused env why) \/ exit = None).
(** Everything that can happen.  [cap]: the size of the buffer of files. *)
Inductive happens (rf : str -> option f64) (complaint : str -> str) (st : num_style) (cap : nat) (a : args) (w : world) (env : list reply) (w' : world) : option N -> Prop :=
| hp_stopped : unchanged w w' -> w_stderr w' = w_stderr w -> happens rf complaint st cap a w env w' None
| hp_unread why m s exit : cannot_read a why m -> refused env why \/ no_input a w why ->
    unchanged w w' -> w_stderr w' = w_stderr w ++ s -> ends 1 [m] env exit s -> happens rf complaint st cap a w env w' exit
| hp_unconverted input m s exit : reads a w input -> cannot_convert complaint rf a input m ->
    unchanged w w' -> w_stderr w' = w_stderr w ++ s -> ends 1 [m] env exit s -> happens rf complaint st cap a w env w' exit
| hp_uncreated input full why m s exit : reads a w input -> delivers rf st a input full -> cannot_create a why m -> refused env why ->
    unchanged w w' -> w_stderr w' = w_stderr w ++ s -> ends 1 [m] env exit s -> happens rf complaint st cap a w env w' exit
| hp_unwritten input full out why m s exit : reads a w input -> delivers rf st a input full -> cannot_write a why m -> refused env why ->
    output_is a w w' out -> prefix out full -> w_stderr w' = w_stderr w ++ s -> ends 1 [m] env exit s -> happens rf complaint st cap a w env w' exit
| hp_stopped_writing input full out : reads a w input -> delivers rf st a input full ->
    output_is a w w' out -> prefix out full -> w_stderr w' = w_stderr w -> happens rf complaint st cap a w env w' None
| hp_written input text out ms s exit : reads a w input -> delivers rf st a input (utf8 (text ++ [cLF])) ->
    output_is a w w' out -> prefix out (utf8 (text ++ [cLF])) ->
    length (utf8 (text ++ [cLF])) <= length out + cap ->
    (a_output a = None \/ (a_stats a = true /\ ~ decodes a) -> out = utf8 (text ++ [cLF])) ->
    messages a input text ms -> w_stderr w' = w_stderr w ++ s -> ends 0 ms env exit s -> happens rf complaint st cap a w env w' exit.
