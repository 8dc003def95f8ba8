(** src/cli/args.rs:4-82: the command line arguments.  Definitions only.

    [Args::parse] is generated by clap 4 (derive) from the attributes at src/cli/args.rs:5-58.  This
    is clap's parser (clap_builder, Parser::get_matches_with, parse_long_arg, parse_short_arg,
    parse_opt_value, react, resolve_pending) for this one command: no subcommands, one positional
    argument, no argument that may start with a hyphen, take several values or be repeated.  clap is
    not part of the repository; that it behaves like this is part of the trusted base.  Simplified:
    arguments are text (UTF-8); values are kept as text and converted at the end, after having been
    checked when clap converts them; errors are not told apart (all of them: a message on standard
    error, status 2). *)
From Verif Require Import Chars Floats Json Shared EncPrim Folding Parser Serde Utf8 Cli.

Local Open Scope nat_scope.

(** The arguments, with those that clap adds. *)
Inductive arg_id :=
| IInput | IOutput | IEncode | IDecode | IDelimiter | IIndent | INoStrict | IKeyFolding | IFlattenDepth | IExpandPaths | IStats
| IHelp | IVersion.
Definition arg_id_eqb (x y : arg_id) : bool :=
  match x, y with
  | IInput, IInput | IOutput, IOutput | IEncode, IEncode | IDecode, IDecode | IDelimiter, IDelimiter | IIndent, IIndent
  | INoStrict, INoStrict | IKeyFolding, IKeyFolding | IFlattenDepth, IFlattenDepth | IExpandPaths, IExpandPaths | IStats, IStats
  | IHelp, IHelp | IVersion, IVersion => true
  | _, _ => false
  end.

(** src/cli/args.rs:21-58: [long] gives the name of the field with hyphens, [short] its first letter. *)
Definition long_names : list (str * arg_id) :=
  [(lit "output", IOutput); (lit "encode", IEncode); (lit "decode", IDecode); (lit "delimiter", IDelimiter);
   (lit "indent", IIndent); (lit "no-strict", INoStrict); (lit "key-folding", IKeyFolding);
   (lit "flatten-depth", IFlattenDepth); (lit "expand-paths", IExpandPaths); (lit "stats", IStats);
   (lit "help", IHelp); (lit "version", IVersion)].
Definition short_names : list (str * arg_id) :=
  [(lit "o", IOutput); (lit "e", IEncode); (lit "d", IDecode); (lit "h", IHelp); (lit "V", IVersion)].
Fixpoint by_name (names : list (str * arg_id)) (n : str) : option arg_id :=
  match names with
  | [] => None
  | (m, id) :: r => if str_eqb n m then Some id else by_name r n
  end.
(** Fields of type [bool], help and version take no value. *)
Definition takes_value (id : arg_id) : bool :=
  match id with IEncode | IDecode | INoStrict | IStats | IHelp | IVersion => false | _ => true end.

(** src/cli/args.rs:38: [value_parser!(u8).range(0..=16)], by way of [str::parse::<i64>]: a sign, at
    least one digit, and the number within the range. *)
Definition split_sign (s : str) : bool * str :=
  match s with
  | c :: r => if (c =? cMINUS)%N then (true, r) else if (c =? cPLUS)%N then (false, r) else (false, s)
  | [] => (false, s)
  end.
Definition parse_indent (s : str) : option nat :=
  let '(neg, digits) := split_sign s in
  if is_empty digits || negb (forallb is_digit digits) then None
  else let n := dec_val digits in
       if neg then (if (n =? 0)%N then Some 0 else None)
       else if (n <=? 16)%N then Some (N.to_nat n) else None.
(** src/cli/args.rs:61-65 and 67-71: the names that [ValueEnum] derives. *)
Definition parse_folding (s : str) : option key_folding_mode :=
  if str_eqb s (lit "off") then Some KFOff else if str_eqb s (lit "safe") then Some KFSafe else None.
Definition parse_expand (s : str) : option expand_paths_mode :=
  if str_eqb s (lit "off") then Some EPOff else if str_eqb s (lit "safe") then Some EPSafe else None.
Definition is_some {A} (o : option A) : bool := match o with Some _ => true | None => false end.
(** Whether a value is accepted.  A path ([PathBuf]) must not be empty; [--flatten-depth] is parsed
    by [str::parse::<usize>]. *)
Definition acceptable (id : arg_id) (v : str) : bool :=
  match id with
  | IInput | IOutput => negb (is_empty v)
  | IDelimiter => is_some (parse_delimiter v)
  | IIndent => is_some (parse_indent v)
  | IKeyFolding => is_some (parse_folding v)
  | IFlattenDepth => is_some (parse_usize v)
  | IExpandPaths => is_some (parse_expand v)
  | _ => true
  end.

(** Why parsing stops: help or version are to be shown, or the arguments are wrong. *)
Inductive stop := ShowHelp | ShowVersion | WrongUsage.
Inductive parsed (A : Type) := Go (a : A) | Stop (s : stop).
Arguments Go {A}. Arguments Stop {A}.
Definition pbind {A B} (x : parsed A) (f : A -> parsed B) : parsed B :=
  match x with Go a => f a | Stop s => Stop s end.

(** clap's ArgMatcher: what has been accepted, and the argument whose value may still come. *)
Definition found : Type := list (arg_id * str).
Record matcher := Matcher { m_found : found; m_pending : option (arg_id * option str) }.
Definition present (id : arg_id) (f : found) : bool := existsb (fun x => arg_id_eqb (fst x) id) f.

(** Parser::react without its first step: an option needs its value, nothing may be given twice
    (ArgAction::Set, SetTrue), values are checked. *)
Definition settle (id : arg_id) (raw : option str) (f : found) : parsed found :=
  match id with
  | IHelp => Stop ShowHelp
  | IVersion => Stop ShowVersion
  | _ => match (if takes_value id then raw else Some (lit "true")) with
         | None => Stop WrongUsage
         | Some v => if present id f then Stop WrongUsage
                     else if acceptable id v then Go (f ++ [(id, v)]) else Stop WrongUsage
         end
  end.
(** Parser::resolve_pending *)
Definition resolve_pending (m : matcher) : parsed found :=
  match m_pending m with
  | None => Go (m_found m)
  | Some (id, raw) => settle id raw (m_found m)
  end.
(** Parser::react *)
Definition react (id : arg_id) (raw : option str) (m : matcher) : parsed found :=
  pbind (resolve_pending m) (settle id raw).

(** The state after an argument (ParseState): an option that waits for its value, or none. *)
Definition pstate : Type := option arg_id.
(** Parser::parse_opt_value *)
Definition parse_opt_value (id : arg_id) (attached : option str) (m : matcher) : parsed (pstate * matcher) :=
  match attached with
  | Some v => pbind (react id (Some v) m) (fun f => Go (None, Matcher f None))
  | None => pbind (resolve_pending m) (fun f => Go (Some id, Matcher f (Some (id, None))))
  end.
(** Parser::parse_long_arg *)
Definition parse_long (name : str) (value : option str) (m : matcher) : parsed (pstate * matcher) :=
  match by_name long_names name with
  | None => Stop WrongUsage
  | Some id =>
      if takes_value id then parse_opt_value id value m
      else match value with
           | Some _ => Stop WrongUsage
           | None => pbind (react id None m) (fun f => Go (None, Matcher f None))
           end
  end.
(** Parser::parse_short_arg *)
Fixpoint parse_short (cs : str) (m : matcher) : parsed (pstate * matcher) :=
  match cs with
  | [] => Go (None, m)
  | c :: r =>
      match by_name short_names [c] with
      | None => Stop WrongUsage
      | Some id =>
          if takes_value id then
            parse_opt_value id (match r with
                                | [] => None
                                | c' :: v => if (c' =? 61)%N then Some v else Some r
                                end) m
          else pbind (react id None m) (fun f => parse_short r (Matcher f None))
      end
  end.

(** clap_lex ParsedArg::to_long: two hyphens and more; the value follows the first equals sign. *)
Fixpoint split_equals (s : str) : str * option str :=
  match s with
  | [] => ([], None)
  | c :: r => if (c =? 61)%N then ([], Some r) else let '(n, v) := split_equals r in (c :: n, v)
  end.
Definition to_long (a : str) : option (str * option str) :=
  match a with
  | c :: d :: (_ :: _) as r => if (c =? cMINUS)%N && (d =? cMINUS)%N then Some (split_equals (skipn 2 a)) else None
  | _ => None
  end.
(** ParsedArg::to_short: one hyphen and more. *)
Definition to_short (a : str) : option str :=
  match a with
  | c :: (d :: _) as r => if (c =? cMINUS)%N && negb (d =? cMINUS)%N then Some (skipn 1 a) else None
  | _ => None
  end.

(** Parser::get_matches_with.  [trailing]: after [--]; [taken]: the positional argument has been
    given (clap's pos_counter). *)
Fixpoint get_matches (trailing : bool) (state : pstate) (taken : bool) (m : matcher) (argv : list str) : parsed found :=
  match argv with
  | [] => resolve_pending m
  | a :: rest =>
      let positional :=
        if taken then Stop WrongUsage
        else pbind (resolve_pending m) (fun f => get_matches trailing None true (Matcher f (Some (IInput, Some a))) rest) in
      if trailing then positional
      else if str_eqb a (lit "--") then get_matches true state taken m rest
      else match to_long a with
           | Some (name, value) => pbind (parse_long name value m) (fun x => get_matches false (fst x) taken (snd x) rest)
           | None =>
               match to_short a with
               | Some cs => pbind (parse_short cs m) (fun x => get_matches false (fst x) taken (snd x) rest)
               | None =>
                   match state with
                   | Some id => get_matches false None taken (Matcher (m_found m) (Some (id, Some a))) rest
                   | None => positional
                   end
               end
           end
  end.

Fixpoint value_of (id : arg_id) (f : found) : option str :=
  match f with
  | [] => None
  | (i, v) :: r => if arg_id_eqb i id then Some v else value_of id r
  end.
Definition default {A} (d : A) (o : option A) : A := match o with Some x => x | None => d end.
(** The values, with the defaults of src/cli/args.rs:34-54. *)
Definition from_matches (f : found) : args :=
  Args (value_of IInput f) (value_of IOutput f) (present IEncode f) (present IDecode f)
       (default cCOMMA (parse_delimiter (default (lit ",") (value_of IDelimiter f))))
       (default 0 (parse_indent (default (lit "2") (value_of IIndent f))))
       (present INoStrict f)
       (default KFOff (parse_folding (default (lit "off") (value_of IKeyFolding f))))
       (match value_of IFlattenDepth f with Some v => parse_usize v | None => None end)
       (default EPOff (parse_expand (default (lit "off") (value_of IExpandPaths f))))
       (present IStats f).
(** [Args::parse], without the name of the program.  src/cli/args.rs:26 and 30: [conflicts_with]. *)
Definition parse_args (argv : list str) : parsed args :=
  pbind (get_matches false None false (Matcher [] None) argv) (fun f =>
  if present IEncode f && present IDecode f then Stop WrongUsage else Go (from_matches f)).

(** * The whole tool *)

Section Tool.
Variable rf : str -> option f64.
Variable complaint : str -> str.
Variable st : JsonText.num_style.
Variables file_cap line_cap : nat.
(** The texts clap shows; each is written as one, failures are ignored. *)
Variables help version : bytes.
Variable usage : list str -> bytes.

(** src/main.rs:1-7 with src/cli/mod.rs:19-20: [Args::parse] shows help or version on standard output
    and exits with 0, or reports wrong arguments on standard error and exits with 2. *)
Definition show (t : target) (text : bytes) (status : N) (w : world) (env : list reply) : option N * world * list reply :=
  let '(o, w', env') := write_all t text w env in
  match o with
  | Killed => (None, w', env')
  | _ => (Some status, w', env')
  end.
Definition tool (argv : list str) (w : world) (env : list reply) : option N * world * list reply :=
  match parse_args argv with
  | Go a => main rf complaint st file_cap line_cap a w env
  | Stop ShowHelp => show TStdout help 0 w env
  | Stop ShowVersion => show TStdout version 0 w env
  | Stop WrongUsage => show TStderr (usage argv) 2 w env
  end.
End Tool.
