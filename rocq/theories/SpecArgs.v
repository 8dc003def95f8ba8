(** How the tool is to be called: the arguments, without the parser.  Definitions only. *)
From Coq Require Import Permutation.
From Verif Require Import Chars Floats Json Spec Shared Folding Cli.

Local Open Scope nat_scope.

(** What one may say: the input, a flag, an option with its value. *)
Inductive setting := Input (p : str) | Flag (name : str) | Value (name v : str).
Definition flag_names : list str := [lit "encode"; lit "decode"; lit "no-strict"; lit "stats"].
Definition option_names : list str :=
  [lit "output"; lit "delimiter"; lit "indent"; lit "key-folding"; lit "flatten-depth"; lit "expand-paths"].

(** A hyphen with something behind it. *)
Definition hyphened (a : str) : Prop := exists c r, a = cMINUS :: c :: r.
(** Flags given by letters. *)
Inductive letters : str -> list setting -> Prop :=
| le_nil : letters [] []
| le_encode s ss : letters s ss -> letters (101%N :: s) (Flag (lit "encode") :: ss)
| le_decode s ss : letters s ss -> letters (100%N :: s) (Flag (lit "decode") :: ss).

(** The spellings of settings. *)
Inductive spells : list str -> list setting -> Prop :=
| sp_nil : spells [] []
(** [FILE] *)
| sp_input a r ss : ~ hyphened a -> spells r ss -> spells (a :: r) (Input a :: ss)
(** [--stats] *)
| sp_flag n r ss : In n flag_names -> spells r ss -> spells ((lit "--" ++ n) :: r) (Flag n :: ss)
(** [--indent=4] *)
| sp_equals n v r ss : In n option_names -> spells r ss -> spells ((lit "--" ++ n ++ lit "=" ++ v) :: r) (Value n v :: ss)
(** [--indent 4] *)
| sp_next n v r ss : In n option_names -> ~ hyphened v -> spells r ss -> spells ((lit "--" ++ n) :: v :: r) (Value n v :: ss)
(** [-e] *)
| sp_letters l s r ss : l <> [] -> letters l s -> spells r ss -> spells ((lit "-" ++ l) :: r) (s ++ ss)
(** [-eo=FILE] *)
| sp_letters_equals l s v r ss : letters l s -> spells r ss -> spells ((lit "-" ++ l ++ lit "o=" ++ v) :: r) (s ++ Value (lit "output") v :: ss)
(** [-eoFILE] *)
| sp_letters_attached l s c v r ss : letters l s -> c <> 61%N -> spells r ss ->
    spells ((lit "-" ++ l ++ lit "o" ++ c :: v) :: r) (s ++ Value (lit "output") (c :: v) :: ss)
(** [-eo FILE] *)
| sp_letters_next l s v r ss : letters l s -> ~ hyphened v -> spells r ss -> spells ((lit "-" ++ l ++ lit "o") :: v :: r) (s ++ Value (lit "output") v :: ss).
(** After [--] there are only inputs. *)
Inductive says : list str -> list setting -> Prop :=
| sy_plain argv ss : spells argv ss -> says argv ss
| sy_rest argv ss r : spells argv ss -> says (argv ++ lit "--" :: r) (ss ++ map Input r).

(** A number, with an optional sign. *)
Definition numeral (signs : list str) (v : str) (n : N) : Prop :=
  exists sign digits, v = sign ++ digits /\ In sign signs /\ digits <> [] /\
    Forall (fun c => (48 <= c /\ c <= 57)%N) digits /\ n = digits_value digits.
Definition delimiter_named (v : str) (d : char) : Prop :=
  In (v, d) [(lit ",", cCOMMA); (lit "comma", cCOMMA); (lit "|", cPIPE); (lit "pipe", cPIPE);
             (lit "\t", cTAB); ([cTAB], cTAB); (lit "tab", cTAB)].
(** 0 to 16; [-0] counts as 0. *)
Definition indent_named (v : str) (n : nat) : Prop :=
  (exists m, numeral [[]; lit "+"] v m /\ (m <= 16)%N /\ n = N.to_nat m) \/ (numeral [lit "-"] v 0 /\ n = 0).
Definition depth_named (v : str) (n : N) : Prop := numeral [[]; lit "+"] v n /\ (n < 2 ^ 64)%N.
Definition folding_named (v : str) (k : key_folding_mode) : Prop := In (v, k) [(lit "off", KFOff); (lit "safe", KFSafe)].
Definition expand_named (v : str) (k : expand_paths_mode) : Prop := In (v, k) [(lit "off", EPOff); (lit "safe", EPSafe)].

(** Which values are good. *)
Inductive good : setting -> Prop :=
| gd_input p : p <> [] -> good (Input p)
| gd_flag n : good (Flag n)
| gd_output v : v <> [] -> good (Value (lit "output") v)
| gd_delimiter v d : delimiter_named v d -> good (Value (lit "delimiter") v)
| gd_indent v n : indent_named v n -> good (Value (lit "indent") v)
| gd_folding v k : folding_named v k -> good (Value (lit "key-folding") v)
| gd_depth v n : depth_named v n -> good (Value (lit "flatten-depth") v)
| gd_expand v k : expand_named v k -> good (Value (lit "expand-paths") v).
Definition called (s : setting) : str := match s with Input _ => [] | Flag n => n | Value n _ => n end.
(** Nothing is said twice, all values are good. *)
Definition proper (ss : list setting) : Prop := NoDup (map called ss) /\ Forall good ss.

(** What is given under a name, or else the default. *)
Definition chosen {A} (ss : list setting) (name : str) (named : str -> A -> Prop) (default x : A) : Prop :=
  (exists v, In (Value name v) ss /\ named v x) \/ ((forall v, ~ In (Value name v) ss) /\ x = default).
Record means (ss : list setting) (a : args) : Prop := Means {
  mn_proper : proper ss;
  mn_one_way : ~ (In (Flag (lit "encode")) ss /\ In (Flag (lit "decode")) ss);
  mn_input : forall p, a_input a = Some p <-> In (Input p) ss;
  mn_output : forall p, a_output a = Some p <-> In (Value (lit "output") p) ss;
  mn_encode : a_encode a = true <-> In (Flag (lit "encode")) ss;
  mn_decode : a_decode a = true <-> In (Flag (lit "decode")) ss;
  mn_delimiter : chosen ss (lit "delimiter") delimiter_named cCOMMA (a_delimiter a);
  mn_indent : chosen ss (lit "indent") indent_named 2 (a_indent a);
  mn_no_strict : a_no_strict a = true <-> In (Flag (lit "no-strict")) ss;
  mn_folding : chosen ss (lit "key-folding") folding_named KFOff (a_key_folding a);
  mn_depth : chosen ss (lit "flatten-depth") (fun v x => exists n, depth_named v n /\ x = Some n) None (a_flatten_depth a);
  mn_expand : chosen ss (lit "expand-paths") expand_named EPOff (a_expand_paths a);
  mn_stats : a_stats a = true <-> In (Flag (lit "stats")) ss
}.

(** Help (or the version) is asked for, by its name or its letter, and nothing before is wrong. *)
Definition asks (name : str) (letter : char) (argv : list str) : Prop :=
  exists pre ss a l s r, argv = pre ++ a :: r /\ spells pre ss /\ letters l s /\ proper (ss ++ s) /\
    ((a = lit "--" ++ name /\ l = []) \/ exists more, a = lit "-" ++ l ++ letter :: more).

(** Arguments the tool can work with. *)
Definition sane (a : args) : Prop :=
  a_input a <> Some [] /\ a_output a <> Some [] /\ ~ (a_encode a = true /\ a_decode a = true) /\
  std_delim (a_delimiter a) /\ a_indent a <= 16 /\ (forall n, a_flatten_depth a = Some n -> (n < 2 ^ 64)%N).
