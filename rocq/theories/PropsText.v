(** C46: the text the encoder writes. *)
From Verif Require Import Chars Floats Json Shared EncPrim Normalize Folding Encoders EncodeApi EncTotal
  Lex Spec JsonEq ReplaceProof LayEnc SpecText TextProof.
From Coq Require Import Permutation.

Local Open Scope nat_scope.

(** The encoder writes exactly the lines that the specification gives for the normalised value,
    for every value, delimiter, indentation, folding mode and flatten depth. *)
Theorem C46_encoded_text :
  forall (v n : json) (indent : option nat) (delimiter : option char) (mode : option key_folding_mode)
         (depth : option N) (ls : list str),
    norm_json v n ->
    (encode_lines 0 v (Some (EncOpts indent delimiter mode depth None)) = Ok ls <->
     exists doc,
       document f64_to_string (unwrap_or delimiter cCOMMA)
         (match mode with Some KFSafe => true | _ => false end)
         (unwrap_or depth 18446744073709551615%N) n doc /\
       ls = map (shown (unwrap_or indent 2)) doc).
Proof.
  intros v n indent delimiter mode depth ls Hn. apply norm_is in Hn. subst n.
  set (o := REncOpts (unwrap_or indent 2) (unwrap_or delimiter DEFAULT_DELIMITER) (unwrap_or mode KFOff) (unwrap_or depth USIZE_MAX) None).
  change (encode_lines 0 v (Some (EncOpts indent delimiter mode depth None)))
    with (encode_json_value (normalize_json_value v) o).
  assert (Ef : (match mode with Some KFSafe => true | _ => false end) = folding o)
    by (unfold folding, o; cbn; destruct mode as [[|]|]; reflexivity).
  rewrite Ef. split.
  - intros E. exact (value_text o _ _ E).
  - intros (doc & Hd & ->). destruct (encode_json_value_total (normalize_json_value v) o) as [ls E]. rewrite E.
    destruct (value_text o _ _ E) as (doc' & Hd' & ->). f_equal. f_equal.
    exact (document_fun o _ _ _ Hd' Hd).
Qed.
Print Assumptions C46_encoded_text.

(** Without options: comma, two spaces, no folding. *)
Theorem C46_encoded_text_default :
  forall (v n : json) (ls : list str),
    norm_json v n ->
    (encode_lines 0 v None = Ok ls <->
     exists doc, document f64_to_string cCOMMA false 18446744073709551615%N n doc /\ ls = map (shown 2) doc).
Proof. intros v n ls Hn. exact (C46_encoded_text v n None None None None ls Hn). Qed.
Print Assumptions C46_encoded_text_default.

(** The specification gives every value one text. *)
Theorem C46_one_text :
  forall (v : json) (delimiter : char) (fold : bool) (depth : N),
    exists doc, document f64_to_string delimiter fold depth v doc /\
      forall doc', document f64_to_string delimiter fold depth v doc' -> doc' = doc.
Proof.
  intros v delimiter fold depth.
  set (o := REncOpts 0 delimiter (if fold then KFSafe else KFOff) depth None).
  assert (Ef : fold = folding o) by (unfold folding, o; cbn; destruct fold; reflexivity). rewrite Ef.
  destruct (encode_json_value_total v o) as [ls E]. destruct (value_text o _ _ E) as (doc & Hd & _).
  exists doc. split; [exact Hd|]. intros doc' Hd'. exact (document_fun o _ _ _ Hd' Hd).
Qed.
Print Assumptions C46_one_text.

(** For objects with distinct keys, the tables are the arrays of objects with the same set of
    keys, in any order, and primitive values. *)
Theorem C46_tables :
  forall (l : list json) (fields : list str),
    Forall distinct_keys l -> ((exists rows, table l fields rows) <-> tabular l fields).
Proof.
  intros l fields Hd. rewrite table_spec. split.
  - intros E. apply extract_header in E as (first & r & -> & <- & Hne & Ht). now apply rows_tabular.
  - now apply tabular_rows.
Qed.
Print Assumptions C46_tables.

(** A document with a folded chain cut by the flatten depth, a table with rows in different orders,
    a list with an object, a nested list, and quoted strings and keys. *)
Definition text_case : json :=
  JObj [(lit "a", JObj [(lit "b", JObj [(lit "c", JObj [(lit "d", JPrim (PStr (lit "05x")))])])]);
        (lit "t", JArr [JObj [(lit "x", JPrim (PBool true)); (lit "y z", JPrim (PStr (lit "p,q")))];
                        JObj [(lit "y z", JPrim PNull); (lit "x", JPrim (PStr (lit "true")))]]);
        (lit "l", JArr [JObj [(lit "k", JArr [JPrim (PStr (lit "-"))]); (lit "m", JObj [])];
                        JArr [JArr []; JPrim (PStr [])]])].
Example C46_case :
  encode_lines 0 text_case (Some (EncOpts None (Some cPIPE) (Some KFSafe) (Some 3%N) None))
  = Ok [lit "a.b.c:";
        lit "  d: ""05x""";
        lit "t[2|]{x|""y z""}:";
        lit "  true|p,q";
        lit "  ""true""|null";
        lit "l[2|]:";
        lit "  - k[1|]: ""-""";
        lit "    m:";
        lit "  - [2|]:";
        lit "    - [0|]:";
        lit "    - """""].
Proof. vm_compute. reflexivity. Qed.
