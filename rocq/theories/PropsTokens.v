(** Properties C03 - C06 and C08: tokens, numbers, strings, keys and table headers. *)
From Verif Require Import Chars Floats Json Shared EncPrim Normalize Parser Lex NumProof PrimProof
  Spec ParseProof.

Local Open Scope nat_scope.

(** ** C03: primitive tokens round trip *)

Lemma normalize_primitive_json p : json_prim p -> normalize_primitive p = p.
Proof.
  destruct p as [s|x|b|]; cbn; auto. intros [H1 H2]. rewrite H1. cbn.
  destruct (f64_is_zero x) eqn:E; auto. f_equal. apply f64_eq.
  unfold f64_is_zero in E. destruct (f64_sf x) as [[]| | |]; cbn; congruence.
Qed.

Theorem C03_primitive_tokens_round_trip :
  forall (p : prim) (delimiter : char), json_prim p ->
    parse_primitive_token (encode_primitive p delimiter) = Ok p.
Proof. intros. rewrite parse_encode_primitive. now rewrite normalize_primitive_json. Qed.
Print Assumptions C03_primitive_tokens_round_trip.

Theorem C03_cell_round_trip :
  forall (ps : list prim) (d : char), std_delim d -> Forall json_prim ps ->
    map_row_values_to_primitives (parse_delimited_values (encode_and_join_primitives ps d) d) = Ok ps.
Proof.
  intros ps d Hd Hp. rewrite parse_row, parse_row_prims by auto. f_equal.
  rewrite <- (map_id ps) at 2. apply map_ext_in. intros p Hi. apply normalize_primitive_json.
  rewrite Forall_forall in Hp. auto.
Qed.
Print Assumptions C03_cell_round_trip.

Example C03_number_like_string :
  json_prim (PStr (lit "05")) /\
  encode_primitive (PStr (lit "05")) cCOMMA <> lit "05" /\
  parse_primitive_token (encode_primitive (PStr (lit "-1.5e3")) cCOMMA) = Ok (PStr (lit "-1.5e3")) /\
  map_row_values_to_primitives
    (parse_delimited_values
       (encode_and_join_primitives [PStr (lit "a,b"); PBool true; PStr (lit "- x"); PStr []] cCOMMA)
       cCOMMA) = Ok [PStr (lit "a,b"); PBool true; PStr (lit "- x"); PStr []].
Proof. repeat split; vm_compute; congruence. Qed.

(** ** C04: number fidelity *)

Theorem C04_number_fidelity :
  forall (x : f64) (delimiter : char), f64_is_finite x = true ->
    parse_primitive_token (encode_primitive (PNum x) delimiter)
    = Ok (PNum (if f64_is_zero x then f64_zero else x)).
Proof. intros. now apply parse_prim_number. Qed.
Print Assumptions C04_number_fidelity.

(** The text printed is plain decimal: an optional sign, an integer part without superfluous
    leading zero, and possibly a fraction; no exponent. *)
Theorem C04_number_text :
  forall x : f64, f64_is_finite x = true ->
    exists (negative : bool) (ip fp : str),
      encode_primitive (PNum x) cCOMMA
      = (if negative then [cMINUS] else []) ++ ip ++ (match fp with [] => [] | _ => cDOT :: fp end) /\
      ip <> [] /\ Forall digit ip /\ Forall digit fp /\ (forall r, ip = cZERO :: r -> r = []).
Proof.
  intros x Hx. destruct (format_number_shape x Hx) as (s & ip & fp & E & Hi & Hf & Hn & Hz & _).
  assert (Hd : forall l, all_digits l -> Forall digit l).
  { intros l Hl. eapply Forall_impl; [|exact Hl]. unfold is_digit, digit. intros; lia. }
  exists s, ip, fp. cbn [encode_primitive]. rewrite E. destruct fp; auto 10.
Qed.
Print Assumptions C04_number_text.

(** 0.1, the least subnormal and the largest double. *)
Definition f64_tenth : f64 := F64 (SpecFloat.S754_finite false 7205759403792794 (-56)) eq_refl.
Definition f64_least : f64 := F64 (SpecFloat.S754_finite false 1 (-1074)) eq_refl.
Example C04_tenth :
  f64_is_finite f64_tenth = true /\ encode_primitive (PNum f64_tenth) cCOMMA = lit "0.1" /\
  parse_primitive_token (lit "0.1") = Ok (PNum f64_tenth) /\
  parse_primitive_token (encode_primitive (PNum f64_least) cCOMMA) = Ok (PNum f64_least).
Proof. repeat split; vm_compute; reflexivity. Qed.

(** ** C05: escaping *)

Theorem C05_escape_lossless : forall s : str, unescape_string (escape_string s) = Ok s.
Proof. exact unescape_escape. Qed.
Print Assumptions C05_escape_lossless.

Theorem C05_quote_safe :
  forall s rest : str,
    find_closing_quote ([cDQ] ++ escape_string s ++ [cDQ] ++ rest) 0
    = Some (1 + length (escape_string s)).
Proof. intros. apply find_closing_quoted. Qed.
Print Assumptions C05_quote_safe.

Theorem C05_escaped_has_no_control :
  forall (s : str) c, In c (escape_string s) -> c <> cLF /\ c <> cCR /\ c <> cTAB.
Proof. intros s c H. apply escape_in in H. tauto. Qed.
Print Assumptions C05_escaped_has_no_control.

(** A quoted literal is read back whole. *)
Theorem C05_quoted_literal :
  forall s : str, parse_string_literal ([cDQ] ++ escape_string s ++ [cDQ]) = Ok s.
Proof. exact parse_string_literal_quoted. Qed.
Print Assumptions C05_quoted_literal.

Example C05_example :
  let s := [cDQ; cBSLASH; cLF; cDQ; cCOLON; cTAB; cCR; cBSLASH; 233; 128512]%N in
  escape_string s <> s /\
  find_closing_quote ([cDQ] ++ escape_string s ++ [cDQ] ++ lit """ \") 0 = Some 18 /\
  unescape_string (escape_string s) = Ok s.
Proof. repeat split; vm_compute; congruence. Qed.

(** ** C06: keys *)

(** A key is written bare exactly when it is a bare key. *)
Lemma bare_key_valid k : is_valid_unquoted_key k = true <-> bare_key k.
Proof.
  unfold bare_key, letter, digit. split.
  - destruct k as [|f r]; cbn; [discriminate|]. intros H. apply andb_prop in H as [H1 H2].
    exists f, r. split; [reflexivity|]. unfold is_alpha in H1. split; [lia|].
    apply Forall_forall. intros x Hx. rewrite forallb_forall in H2. apply H2 in Hx.
    unfold is_alnum, is_alpha, is_digit in Hx. lia.
  - intros (c & r & -> & Hc & Hr). cbn. apply andb_true_intro. split.
    + unfold is_alpha. lia.
    + apply forallb_forall. intros x Hx. rewrite Forall_forall in Hr. apply Hr in Hx.
      unfold is_alnum, is_alpha, is_digit. lia.
Qed.

(** On a [key: value] or [key:] line: the key, where the rest starts, and the quoting. *)
Theorem C06_key_line_round_trip :
  forall (k rest : str),
    exists q : bool,
      parse_key_token (encode_key k ++ [cCOLON] ++ rest) 0
      = Ok (k, length (encode_key k) + 1, q) /\ (q = false <-> bare_key k).
Proof.
  intros k rest. exists (negb (is_valid_unquoted_key k)). split.
  - cbn [app]. rewrite parse_key_token_ok. now rewrite Nat.add_1_r.
  - rewrite <- bare_key_valid. destruct (is_valid_unquoted_key k); cbn; split; intros; congruence.
Qed.
Print Assumptions C06_key_line_round_trip.

(** In an array header, with or without fields, whatever follows on the line. *)
Theorem C06_header_round_trip :
  forall (n : nat) (k : str) (fields : option (list str)) (d : char) (tail : str),
    std_delim d -> (N.of_nat n <= 100000000)%N ->
    (forall fs f, fields = Some fs -> In f fs -> ~ In cRBRACE f) ->
    exists h inline, parse_array_header_line (format_header n (Some k) fields d ++ tail) cCOMMA
                     = Ok (Some (h, inline)) /\
      ah_key h = Some k /\ (ah_quoted h = false <-> bare_key k) /\
      ah_length h = N.of_nat n /\ ah_delimiter h = d /\
      option_map (map fn_name) (ah_fields h) = fields.
Proof.
  intros n k fields d tail Hd Hn Hf.
  assert (Hb : no_rbrace fields).
  { destruct fields as [fs|]; cbn; auto. apply Forall_forall. eauto. }
  eexists _, _. split; [apply parse_header_ok; auto|]. cbn.
  split; [reflexivity|]. split.
  { rewrite <- bare_key_valid. destruct (is_valid_unquoted_key k); cbn; split; intros; congruence. }
  repeat split; auto.
  - destruct fields as [fs|]; cbn; auto. f_equal. rewrite map_map. cbn. apply map_id.
Qed.
Print Assumptions C06_header_round_trip.

Example C06_example :
  let k := lit "a]:{""x" in
  parse_key_token (encode_key k ++ lit ": 1") 0 = Ok (k, 10, true) /\
  parse_key_token (encode_key (lit "a.b_9") ++ lit ":") 0 = Ok (lit "a.b_9", 6, false) /\
  ~ bare_key k.
Proof.
  split; [vm_compute; reflexivity|]. split; [vm_compute; reflexivity|].
  rewrite <- bare_key_valid. vm_compute. congruence.
Qed.

(** ** C08: table field names *)

Theorem C08_field_names_survive :
  forall (n : nat) (key : option str) (fs : list str) (d : char) (tail : str),
    std_delim d -> (N.of_nat n <= 100000000)%N -> (forall f, In f fs -> ~ In cRBRACE f) ->
    exists h inline, parse_array_header_line (format_header n key (Some fs) d ++ tail) cCOMMA
                     = Ok (Some (h, inline)) /\
      exists fields, ah_fields h = Some fields /\ map fn_name fields = fs /\
        Forall (fun f => fn_quoted f = false <-> bare_key (fn_name f)) fields.
Proof.
  intros n key fs d tail Hd Hn Hf.
  eexists _, _. split.
  - apply parse_header_ok; auto. cbn. now apply Forall_forall.
  - exists (map field_of fs). cbn. repeat split.
    + rewrite map_map. cbn. apply map_id.
    + apply Forall_map, Forall_forall. intros f _. cbn. rewrite <- bare_key_valid.
      destruct (is_valid_unquoted_key f); cbn; split; intros; congruence.
Qed.
Print Assumptions C08_field_names_survive.

(** The full statement (without the hypothesis on '}') is false: the header of a table with a
    field named "a}b" is not read back. *)
Theorem C08_field_names_refuted :
  exists (fs : list str),
    forall h inline,
      parse_array_header_line (format_header 1 (Some (lit "t")) (Some fs) cCOMMA) cCOMMA
      = Ok (Some (h, inline)) ->
      option_map (map fn_name) (ah_fields h) <> Some fs.
Proof. exists [lit "a}b"]. intros h inline H. vm_compute in H. discriminate H. Qed.
Print Assumptions C08_field_names_refuted.

Example C08_example :
  format_header 2 (Some (lit "t")) (Some [lit "a b"; lit "c|d:"; lit "e"]) cPIPE
    = lit "t[2|]{""a b""|""c|d:""|e}:" /\
  exists h, parse_array_header_line (lit "t[2|]{""a b""|""c|d:""|e}:") cCOMMA = Ok (Some (h, None)) /\
    ah_fields h = Some [Field (lit "a b") true; Field (lit "c|d:") true; Field (lit "e") false].
Proof. split; [reflexivity|]. eexists. split; vm_compute; reflexivity. Qed.
