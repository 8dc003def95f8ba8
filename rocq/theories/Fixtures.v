(** The spec fixtures of the repository (/repo/tests/fixtures/spec), run against the model.
    These are tests that the model agrees with the recorded behaviour, not proofs.
    Generated from the JSON files. *)
From Verif Require Import Chars Floats Json EncodeApi DecodeApi.

Fixpoint json_eqb (a b : json) : bool :=
  match a, b with
  | JPrim (PStr x), JPrim (PStr y) => str_eqb x y
  | JPrim (PNum x), JPrim (PNum y) => sf_eqb (f64_sf x) (f64_sf y)
  | JPrim (PBool x), JPrim (PBool y) => Bool.eqb x y
  | JPrim PNull, JPrim PNull => true
  | JArr x, JArr y =>
      (fix go x y := match x, y with
                     | [], [] => true
                     | a :: x, b :: y => json_eqb a b && go x y
                     | _, _ => false end) x y
  | JObj x, JObj y =>
      (fix go x y := match x, y with
                     | [], [] => true
                     | (k, a) :: x, (l, b) :: y => str_eqb k l && json_eqb a b && go x y
                     | _, _ => false end) x y
  | _, _ => false
  end.
Definition jnum (s : str) : json := JPrim (PNum (unwrap_or (parse_f64 s) f64_nan)).
Definition enc_test (v : json) (o : encode_options) (expected : str) : bool :=
  match encode 0 v (Some o) with Ok s => str_eqb s expected | Err _ => false end.
Definition dec_test (s : str) (o : decode_options) (expected : json) : bool :=
  match try_decode s (Some o) with Ok v => json_eqb v expected | Err _ => false end.
Definition dec_err (s : str) (o : decode_options) : bool :=
  match try_decode s (Some o) with Ok _ => false | Err EFuel => false | Err EPanic => false | Err _ => true end.


(* decode/arrays-nested.json *)
(* parses list arrays for non-uniform objects *)
Example fixture_1 : dec_test (lit "items[2]:
  - id: 1
    name: First
  - id: 2
    name: Second
    extra: true") (DecOpts None None None) (JObj [((lit "items"), (JArr [(JObj [((lit "id"), (jnum (lit "1"))); ((lit "name"), (JPrim (PStr (lit "First"))))]); (JObj [((lit "id"), (jnum (lit "2"))); ((lit "name"), (JPrim (PStr (lit "Second")))); ((lit "extra"), (JPrim (PBool true)))])]))]) = true.
Proof. vm_compute. reflexivity. Qed.
(* parses list arrays with empty items *)
Example fixture_2 : dec_test (lit "items[3]:
  - first
  - second
  -") (DecOpts None None None) (JObj [((lit "items"), (JArr [(JPrim (PStr (lit "first"))); (JPrim (PStr (lit "second"))); (JObj [])]))]) = true.
Proof. vm_compute. reflexivity. Qed.
(* parses list arrays with deeply nested objects *)
Example fixture_3 : dec_test (lit "items[2]:
  - properties:
      state:
        type: string
  - id: 2") (DecOpts None None None) (JObj [((lit "items"), (JArr [(JObj [((lit "properties"), (JObj [((lit "state"), (JObj [((lit "type"), (JPrim (PStr (lit "string"))))]))]))]); (JObj [((lit "id"), (jnum (lit "2")))])]))]) = true.
Proof. vm_compute. reflexivity. Qed.
(* parses list arrays containing objects with nested properties *)
Example fixture_4 : dec_test (lit "items[1]:
  - id: 1
    nested:
      x: 1") (DecOpts None None None) (JObj [((lit "items"), (JArr [(JObj [((lit "id"), (jnum (lit "1"))); ((lit "nested"), (JObj [((lit "x"), (jnum (lit "1")))]))])]))]) = true.
Proof. vm_compute. reflexivity. Qed.
(* parses list items whose first field is a tabular array *)
Example fixture_5 : dec_test (lit "items[1]:
  - users[2]{id,name}:
      1,Ada
      2,Bob
    status: active") (DecOpts None None None) (JObj [((lit "items"), (JArr [(JObj [((lit "users"), (JArr [(JObj [((lit "id"), (jnum (lit "1"))); ((lit "name"), (JPrim (PStr (lit "Ada"))))]); (JObj [((lit "id"), (jnum (lit "2"))); ((lit "name"), (JPrim (PStr (lit "Bob"))))])])); ((lit "status"), (JPrim (PStr (lit "active"))))])]))]) = true.
Proof. vm_compute. reflexivity. Qed.
(* parses single-field list-item object with tabular array *)
Example fixture_6 : dec_test (lit "items[1]:
  - users[2]{id,name}:
      1,Ada
      2,Bob") (DecOpts None None None) (JObj [((lit "items"), (JArr [(JObj [((lit "users"), (JArr [(JObj [((lit "id"), (jnum (lit "1"))); ((lit "name"), (JPrim (PStr (lit "Ada"))))]); (JObj [((lit "id"), (jnum (lit "2"))); ((lit "name"), (JPrim (PStr (lit "Bob"))))])]))])]))]) = true.
Proof. vm_compute. reflexivity. Qed.
(* parses objects containing arrays (including empty arrays) in list format *)
Example fixture_7 : dec_test (lit "items[1]:
  - name: Ada
    data[0]:") (DecOpts None None None) (JObj [((lit "items"), (JArr [(JObj [((lit "name"), (JPrim (PStr (lit "Ada")))); ((lit "data"), (JArr []))])]))]) = true.
Proof. vm_compute. reflexivity. Qed.
(* parses arrays of arrays within objects *)
Example fixture_8 : dec_test (lit "items[1]:
  - matrix[2]:
      - [2]: 1,2
      - [2]: 3,4
    name: grid") (DecOpts None None None) (JObj [((lit "items"), (JArr [(JObj [((lit "matrix"), (JArr [(JArr [(jnum (lit "1")); (jnum (lit "2"))]); (JArr [(jnum (lit "3")); (jnum (lit "4"))])])); ((lit "name"), (JPrim (PStr (lit "grid"))))])]))]) = true.
Proof. vm_compute. reflexivity. Qed.
(* parses nested arrays of primitives *)
Example fixture_9 : dec_test (lit "pairs[2]:
  - [2]: a,b
  - [2]: c,d") (DecOpts None None None) (JObj [((lit "pairs"), (JArr [(JArr [(JPrim (PStr (lit "a"))); (JPrim (PStr (lit "b")))]); (JArr [(JPrim (PStr (lit "c"))); (JPrim (PStr (lit "d")))])]))]) = true.
Proof. vm_compute. reflexivity. Qed.
(* parses quoted strings and mixed lengths in nested arrays *)
Example fixture_10 : dec_test (lit "pairs[2]:
  - [2]: a,b
  - [3]: ""c,d"",""e:f"",""true""") (DecOpts None None None) (JObj [((lit "pairs"), (JArr [(JArr [(JPrim (PStr (lit "a"))); (JPrim (PStr (lit "b")))]); (JArr [(JPrim (PStr (lit "c,d"))); (JPrim (PStr (lit "e:f"))); (JPrim (PStr (lit "true")))])]))]) = true.
Proof. vm_compute. reflexivity. Qed.
(* parses empty inner arrays *)
Example fixture_11 : dec_test (lit "pairs[2]:
  - [0]:
  - [0]:") (DecOpts None None None) (JObj [((lit "pairs"), (JArr [(JArr []); (JArr [])]))]) = true.
Proof. vm_compute. reflexivity. Qed.
(* parses mixed-length inner arrays *)
Example fixture_12 : dec_test (lit "pairs[2]:
  - [1]: 1
  - [2]: 2,3") (DecOpts None None None) (JObj [((lit "pairs"), (JArr [(JArr [(jnum (lit "1"))]); (JArr [(jnum (lit "2")); (jnum (lit "3"))])]))]) = true.
Proof. vm_compute. reflexivity. Qed.
(* parses root-level primitive array inline *)
Example fixture_13 : dec_test (lit "[5]: x,y,""true"",true,10") (DecOpts None None None) (JArr [(JPrim (PStr (lit "x"))); (JPrim (PStr (lit "y"))); (JPrim (PStr (lit "true"))); (JPrim (PBool true)); (jnum (lit "10"))]) = true.
Proof. vm_compute. reflexivity. Qed.
(* parses root-level array of uniform objects in tabular format *)
Example fixture_14 : dec_test (lit "[2]{id}:
  1
  2") (DecOpts None None None) (JArr [(JObj [((lit "id"), (jnum (lit "1")))]); (JObj [((lit "id"), (jnum (lit "2")))])]) = true.
Proof. vm_compute. reflexivity. Qed.
(* parses root-level array of non-uniform objects in list format *)
Example fixture_15 : dec_test (lit "[2]:
  - id: 1
  - id: 2
    name: Ada") (DecOpts None None None) (JArr [(JObj [((lit "id"), (jnum (lit "1")))]); (JObj [((lit "id"), (jnum (lit "2"))); ((lit "name"), (JPrim (PStr (lit "Ada"))))])]) = true.
Proof. vm_compute. reflexivity. Qed.
(* parses root-level array mixing primitive, object, and array of objects in list format *)
Example fixture_16 : dec_test (lit "[3]:
  - summary
  - id: 1
    name: Ada
  - [2]:
    - id: 2
    - status: draft") (DecOpts None None None) (JArr [(JPrim (PStr (lit "summary"))); (JObj [((lit "id"), (jnum (lit "1"))); ((lit "name"), (JPrim (PStr (lit "Ada"))))]); (JArr [(JObj [((lit "id"), (jnum (lit "2")))]); (JObj [((lit "status"), (JPrim (PStr (lit "draft"))))])])]) = true.
Proof. vm_compute. reflexivity. Qed.
(* parses root-level array of arrays *)
Example fixture_17 : dec_test (lit "[2]:
  - [2]: 1,2
  - [0]:") (DecOpts None None None) (JArr [(JArr [(jnum (lit "1")); (jnum (lit "2"))]); (JArr [])]) = true.
Proof. vm_compute. reflexivity. Qed.
(* parses empty root-level array *)
Example fixture_18 : dec_test (lit "[0]:") (DecOpts None None None) (JArr []) = true.
Proof. vm_compute. reflexivity. Qed.
(* parses complex mixed object with arrays and nested objects *)
Example fixture_19 : dec_test (lit "user:
  id: 123
  name: Ada
  tags[2]: reading,gaming
  active: true
  prefs[0]:") (DecOpts None None None) (JObj [((lit "user"), (JObj [((lit "id"), (jnum (lit "123"))); ((lit "name"), (JPrim (PStr (lit "Ada")))); ((lit "tags"), (JArr [(JPrim (PStr (lit "reading"))); (JPrim (PStr (lit "gaming")))])); ((lit "active"), (JPrim (PBool true))); ((lit "prefs"), (JArr []))]))]) = true.
Proof. vm_compute. reflexivity. Qed.
(* parses arrays mixing primitives, objects, and strings in list format *)
Example fixture_20 : dec_test (lit "items[3]:
  - 1
  - a: 1
  - text") (DecOpts None None None) (JObj [((lit "items"), (JArr [(jnum (lit "1")); (JObj [((lit "a"), (jnum (lit "1")))]); (JPrim (PStr (lit "text")))]))]) = true.
Proof. vm_compute. reflexivity. Qed.
(* parses arrays mixing objects and arrays *)
Example fixture_21 : dec_test (lit "items[2]:
  - a: 1
  - [2]: 1,2") (DecOpts None None None) (JObj [((lit "items"), (JArr [(JObj [((lit "a"), (jnum (lit "1")))]); (JArr [(jnum (lit "1")); (jnum (lit "2"))])]))]) = true.
Proof. vm_compute. reflexivity. Qed.
(* parses quoted key with list array format *)
Example fixture_22 : dec_test (lit """x-items""[2]:
  - id: 1
  - id: 2") (DecOpts None None None) (JObj [((lit "x-items"), (JArr [(JObj [((lit "id"), (jnum (lit "1")))]); (JObj [((lit "id"), (jnum (lit "2")))])]))]) = true.
Proof. vm_compute. reflexivity. Qed.

(* decode/arrays-primitive.json *)
(* parses string arrays inline *)
Example fixture_23 : dec_test (lit "tags[3]: reading,gaming,coding") (DecOpts None None None) (JObj [((lit "tags"), (JArr [(JPrim (PStr (lit "reading"))); (JPrim (PStr (lit "gaming"))); (JPrim (PStr (lit "coding")))]))]) = true.
Proof. vm_compute. reflexivity. Qed.
(* parses number arrays inline *)
Example fixture_24 : dec_test (lit "nums[3]: 1,2,3") (DecOpts None None None) (JObj [((lit "nums"), (JArr [(jnum (lit "1")); (jnum (lit "2")); (jnum (lit "3"))]))]) = true.
Proof. vm_compute. reflexivity. Qed.
(* parses mixed primitive arrays inline *)
Example fixture_25 : dec_test (lit "data[4]: x,y,true,10") (DecOpts None None None) (JObj [((lit "data"), (JArr [(JPrim (PStr (lit "x"))); (JPrim (PStr (lit "y"))); (JPrim (PBool true)); (jnum (lit "10"))]))]) = true.
Proof. vm_compute. reflexivity. Qed.
(* parses empty arrays *)
Example fixture_26 : dec_test (lit "items[0]:") (DecOpts None None None) (JObj [((lit "items"), (JArr []))]) = true.
Proof. vm_compute. reflexivity. Qed.
(* parses single-item array with empty string *)
Example fixture_27 : dec_test (lit "items[1]: """"") (DecOpts None None None) (JObj [((lit "items"), (JArr [(JPrim (PStr (lit "")))]))]) = true.
Proof. vm_compute. reflexivity. Qed.
(* parses multi-item array with empty string *)
Example fixture_28 : dec_test (lit "items[3]: a,"""",b") (DecOpts None None None) (JObj [((lit "items"), (JArr [(JPrim (PStr (lit "a"))); (JPrim (PStr (lit ""))); (JPrim (PStr (lit "b")))]))]) = true.
Proof. vm_compute. reflexivity. Qed.
(* parses whitespace-only strings in arrays *)
Example fixture_29 : dec_test (lit "items[2]: "" "",""  """) (DecOpts None None None) (JObj [((lit "items"), (JArr [(JPrim (PStr (lit " "))); (JPrim (PStr (lit "  ")))]))]) = true.
Proof. vm_compute. reflexivity. Qed.
(* parses strings with delimiters in arrays *)
Example fixture_30 : dec_test (lit "items[3]: a,""b,c"",""d:e""") (DecOpts None None None) (JObj [((lit "items"), (JArr [(JPrim (PStr (lit "a"))); (JPrim (PStr (lit "b,c"))); (JPrim (PStr (lit "d:e")))]))]) = true.
Proof. vm_compute. reflexivity. Qed.
(* parses strings that look like primitives when quoted *)
Example fixture_31 : dec_test (lit "items[4]: x,""true"",""42"",""-3.14""") (DecOpts None None None) (JObj [((lit "items"), (JArr [(JPrim (PStr (lit "x"))); (JPrim (PStr (lit "true"))); (JPrim (PStr (lit "42"))); (JPrim (PStr (lit "-3.14")))]))]) = true.
Proof. vm_compute. reflexivity. Qed.
(* parses strings with structural tokens in arrays *)
Example fixture_32 : dec_test (lit "items[3]: ""[5]"",""- item"",""{key}""") (DecOpts None None None) (JObj [((lit "items"), (JArr [(JPrim (PStr (lit "[5]"))); (JPrim (PStr (lit "- item"))); (JPrim (PStr (lit "{key}")))]))]) = true.
Proof. vm_compute. reflexivity. Qed.
(* parses quoted key with inline array *)
Example fixture_33 : dec_test (lit """my-key""[3]: 1,2,3") (DecOpts None None None) (JObj [((lit "my-key"), (JArr [(jnum (lit "1")); (jnum (lit "2")); (jnum (lit "3"))]))]) = true.
Proof. vm_compute. reflexivity. Qed.
(* parses quoted key containing brackets with inline array *)
Example fixture_34 : dec_test (lit """key[test]""[3]: 1,2,3") (DecOpts None None None) (JObj [((lit "key[test]"), (JArr [(jnum (lit "1")); (jnum (lit "2")); (jnum (lit "3"))]))]) = true.
Proof. vm_compute. reflexivity. Qed.
(* parses quoted key with empty array *)
Example fixture_35 : dec_test (lit """x-custom""[0]:") (DecOpts None None None) (JObj [((lit "x-custom"), (JArr []))]) = true.
Proof. vm_compute. reflexivity. Qed.

(* decode/arrays-tabular.json *)
(* parses tabular arrays of uniform objects *)
Example fixture_36 : dec_test (lit "items[2]{sku,qty,price}:
  A1,2,9.99
  B2,1,14.5") (DecOpts None None None) (JObj [((lit "items"), (JArr [(JObj [((lit "sku"), (JPrim (PStr (lit "A1")))); ((lit "qty"), (jnum (lit "2"))); ((lit "price"), (jnum (lit "9.99")))]); (JObj [((lit "sku"), (JPrim (PStr (lit "B2")))); ((lit "qty"), (jnum (lit "1"))); ((lit "price"), (jnum (lit "14.5")))])]))]) = true.
Proof. vm_compute. reflexivity. Qed.
(* parses nulls and quoted values in tabular rows *)
Example fixture_37 : dec_test (lit "items[2]{id,value}:
  1,null
  2,""test""") (DecOpts None None None) (JObj [((lit "items"), (JArr [(JObj [((lit "id"), (jnum (lit "1"))); ((lit "value"), (JPrim PNull))]); (JObj [((lit "id"), (jnum (lit "2"))); ((lit "value"), (JPrim (PStr (lit "test"))))])]))]) = true.
Proof. vm_compute. reflexivity. Qed.
(* parses quoted colon in tabular row as data *)
Example fixture_38 : dec_test (lit "items[2]{id,note}:
  1,""a:b""
  2,""c:d""") (DecOpts None None None) (JObj [((lit "items"), (JArr [(JObj [((lit "id"), (jnum (lit "1"))); ((lit "note"), (JPrim (PStr (lit "a:b"))))]); (JObj [((lit "id"), (jnum (lit "2"))); ((lit "note"), (JPrim (PStr (lit "c:d"))))])]))]) = true.
Proof. vm_compute. reflexivity. Qed.
(* parses quoted header keys in tabular arrays *)
Example fixture_39 : dec_test (lit "items[2]{""order:id"",""full name""}:
  1,Ada
  2,Bob") (DecOpts None None None) (JObj [((lit "items"), (JArr [(JObj [((lit "order:id"), (jnum (lit "1"))); ((lit "full name"), (JPrim (PStr (lit "Ada"))))]); (JObj [((lit "order:id"), (jnum (lit "2"))); ((lit "full name"), (JPrim (PStr (lit "Bob"))))])]))]) = true.
Proof. vm_compute. reflexivity. Qed.
(* parses quoted key with tabular array format *)
Example fixture_40 : dec_test (lit """x-items""[2]{id,name}:
  1,Ada
  2,Bob") (DecOpts None None None) (JObj [((lit "x-items"), (JArr [(JObj [((lit "id"), (jnum (lit "1"))); ((lit "name"), (JPrim (PStr (lit "Ada"))))]); (JObj [((lit "id"), (jnum (lit "2"))); ((lit "name"), (JPrim (PStr (lit "Bob"))))])]))]) = true.
Proof. vm_compute. reflexivity. Qed.
(* treats unquoted colon as terminator for tabular rows and start of key-value pair *)
Example fixture_41 : dec_test (lit "items[2]{id,name}:
  1,Alice
  2,Bob
count: 2") (DecOpts None None None) (JObj [((lit "items"), (JArr [(JObj [((lit "id"), (jnum (lit "1"))); ((lit "name"), (JPrim (PStr (lit "Alice"))))]); (JObj [((lit "id"), (jnum (lit "2"))); ((lit "name"), (JPrim (PStr (lit "Bob"))))])])); ((lit "count"), (jnum (lit "2")))]) = true.
Proof. vm_compute. reflexivity. Qed.

(* decode/blank-lines.json *)
(* throws on blank line inside list array *)
Example fixture_42 : dec_err (lit "items[3]:
  - a

  - b
  - c") (DecOpts None (Some true) None) = true.
Proof. vm_compute. reflexivity. Qed.
(* throws on blank line inside tabular array *)
Example fixture_43 : dec_err (lit "items[2]{id}:
  1

  2") (DecOpts None (Some true) None) = true.
Proof. vm_compute. reflexivity. Qed.
(* throws on multiple blank lines inside array *)
Example fixture_44 : dec_err (lit "items[2]:
  - a


  - b") (DecOpts None (Some true) None) = true.
Proof. vm_compute. reflexivity. Qed.
(* throws on blank line with spaces inside array *)
Example fixture_45 : dec_err (lit "items[2]:
  - a
  
  - b") (DecOpts None (Some true) None) = true.
Proof. vm_compute. reflexivity. Qed.
(* throws on blank line in nested list array *)
Example fixture_46 : dec_err (lit "outer[2]:
  - inner[2]:
    - a

    - b
  - x") (DecOpts None (Some true) None) = true.
Proof. vm_compute. reflexivity. Qed.
(* accepts blank line between root-level fields *)
Example fixture_47 : dec_test (lit "a: 1

b: 2") (DecOpts None (Some true) None) (JObj [((lit "a"), (jnum (lit "1"))); ((lit "b"), (jnum (lit "2")))]) = true.
Proof. vm_compute. reflexivity. Qed.
(* accepts trailing newline at end of file *)
Example fixture_48 : dec_test (lit "a: 1
") (DecOpts None (Some true) None) (JObj [((lit "a"), (jnum (lit "1")))]) = true.
Proof. vm_compute. reflexivity. Qed.
(* accepts multiple trailing newlines *)
Example fixture_49 : dec_test (lit "a: 1


") (DecOpts None (Some true) None) (JObj [((lit "a"), (jnum (lit "1")))]) = true.
Proof. vm_compute. reflexivity. Qed.
(* accepts blank line after array ends *)
Example fixture_50 : dec_test (lit "items[1]:
  - a

b: 2") (DecOpts None (Some true) None) (JObj [((lit "items"), (JArr [(JPrim (PStr (lit "a")))])); ((lit "b"), (jnum (lit "2")))]) = true.
Proof. vm_compute. reflexivity. Qed.
(* accepts blank line between nested object fields *)
Example fixture_51 : dec_test (lit "a:
  b: 1

  c: 2") (DecOpts None (Some true) None) (JObj [((lit "a"), (JObj [((lit "b"), (jnum (lit "1"))); ((lit "c"), (jnum (lit "2")))]))]) = true.
Proof. vm_compute. reflexivity. Qed.
(* ignores blank lines inside list array when strict=false *)
Example fixture_52 : dec_test (lit "items[3]:
  - a

  - b
  - c") (DecOpts None (Some false) None) (JObj [((lit "items"), (JArr [(JPrim (PStr (lit "a"))); (JPrim (PStr (lit "b"))); (JPrim (PStr (lit "c")))]))]) = true.
Proof. vm_compute. reflexivity. Qed.
(* ignores blank lines inside tabular array when strict=false *)
Example fixture_53 : dec_test (lit "items[2]{id,name}:
  1,Alice

  2,Bob") (DecOpts None (Some false) None) (JObj [((lit "items"), (JArr [(JObj [((lit "id"), (jnum (lit "1"))); ((lit "name"), (JPrim (PStr (lit "Alice"))))]); (JObj [((lit "id"), (jnum (lit "2"))); ((lit "name"), (JPrim (PStr (lit "Bob"))))])]))]) = true.
Proof. vm_compute. reflexivity. Qed.
(* ignores multiple blank lines in arrays when strict=false *)
Example fixture_54 : dec_test (lit "items[2]:
  - a


  - b") (DecOpts None (Some false) None) (JObj [((lit "items"), (JArr [(JPrim (PStr (lit "a"))); (JPrim (PStr (lit "b")))]))]) = true.
Proof. vm_compute. reflexivity. Qed.

(* decode/delimiters.json *)
(* parses primitive arrays with tab delimiter *)
Example fixture_55 : dec_test [116;97;103;115;91;51;9;93;58;32;114;101;97;100;105;110;103;9;103;97;109;105;110;103;9;99;111;100;105;110;103] (DecOpts None None None) (JObj [((lit "tags"), (JArr [(JPrim (PStr (lit "reading"))); (JPrim (PStr (lit "gaming"))); (JPrim (PStr (lit "coding")))]))]) = true.
Proof. vm_compute. reflexivity. Qed.
(* parses primitive arrays with pipe delimiter *)
Example fixture_56 : dec_test (lit "tags[3|]: reading|gaming|coding") (DecOpts None None None) (JObj [((lit "tags"), (JArr [(JPrim (PStr (lit "reading"))); (JPrim (PStr (lit "gaming"))); (JPrim (PStr (lit "coding")))]))]) = true.
Proof. vm_compute. reflexivity. Qed.
(* parses primitive arrays with comma delimiter *)
Example fixture_57 : dec_test (lit "tags[3]: reading,gaming,coding") (DecOpts None None None) (JObj [((lit "tags"), (JArr [(JPrim (PStr (lit "reading"))); (JPrim (PStr (lit "gaming"))); (JPrim (PStr (lit "coding")))]))]) = true.
Proof. vm_compute. reflexivity. Qed.
(* parses tabular arrays with tab delimiter *)
Example fixture_58 : dec_test [105;116;101;109;115;91;50;9;93;123;115;107;117;9;113;116;121;9;112;114;105;99;101;125;58;10;32;32;65;49;9;50;9;57;46;57;57;10;32;32;66;50;9;49;9;49;52;46;53] (DecOpts None None None) (JObj [((lit "items"), (JArr [(JObj [((lit "sku"), (JPrim (PStr (lit "A1")))); ((lit "qty"), (jnum (lit "2"))); ((lit "price"), (jnum (lit "9.99")))]); (JObj [((lit "sku"), (JPrim (PStr (lit "B2")))); ((lit "qty"), (jnum (lit "1"))); ((lit "price"), (jnum (lit "14.5")))])]))]) = true.
Proof. vm_compute. reflexivity. Qed.
(* parses tabular arrays with pipe delimiter *)
Example fixture_59 : dec_test (lit "items[2|]{sku|qty|price}:
  A1|2|9.99
  B2|1|14.5") (DecOpts None None None) (JObj [((lit "items"), (JArr [(JObj [((lit "sku"), (JPrim (PStr (lit "A1")))); ((lit "qty"), (jnum (lit "2"))); ((lit "price"), (jnum (lit "9.99")))]); (JObj [((lit "sku"), (JPrim (PStr (lit "B2")))); ((lit "qty"), (jnum (lit "1"))); ((lit "price"), (jnum (lit "14.5")))])]))]) = true.
Proof. vm_compute. reflexivity. Qed.
(* parses nested arrays with tab delimiter *)
Example fixture_60 : dec_test [112;97;105;114;115;91;50;9;93;58;10;32;32;45;32;91;50;9;93;58;32;97;9;98;10;32;32;45;32;91;50;9;93;58;32;99;9;100] (DecOpts None None None) (JObj [((lit "pairs"), (JArr [(JArr [(JPrim (PStr (lit "a"))); (JPrim (PStr (lit "b")))]); (JArr [(JPrim (PStr (lit "c"))); (JPrim (PStr (lit "d")))])]))]) = true.
Proof. vm_compute. reflexivity. Qed.
(* parses nested arrays with pipe delimiter *)
Example fixture_61 : dec_test (lit "pairs[2|]:
  - [2|]: a|b
  - [2|]: c|d") (DecOpts None None None) (JObj [((lit "pairs"), (JArr [(JArr [(JPrim (PStr (lit "a"))); (JPrim (PStr (lit "b")))]); (JArr [(JPrim (PStr (lit "c"))); (JPrim (PStr (lit "d")))])]))]) = true.
Proof. vm_compute. reflexivity. Qed.
(* parses nested arrays inside list items with default comma delimiter *)
Example fixture_62 : dec_test [105;116;101;109;115;91;49;9;93;58;10;32;32;45;32;116;97;103;115;91;51;93;58;32;97;44;98;44;99] (DecOpts None None None) (JObj [((lit "items"), (JArr [(JObj [((lit "tags"), (JArr [(JPrim (PStr (lit "a"))); (JPrim (PStr (lit "b"))); (JPrim (PStr (lit "c")))]))])]))]) = true.
Proof. vm_compute. reflexivity. Qed.
(* parses nested arrays inside list items with default comma delimiter when parent uses pipe *)
Example fixture_63 : dec_test (lit "items[1|]:
  - tags[3]: a,b,c") (DecOpts None None None) (JObj [((lit "items"), (JArr [(JObj [((lit "tags"), (JArr [(JPrim (PStr (lit "a"))); (JPrim (PStr (lit "b"))); (JPrim (PStr (lit "c")))]))])]))]) = true.
Proof. vm_compute. reflexivity. Qed.
(* parses root-level array with tab delimiter *)
Example fixture_64 : dec_test [91;51;9;93;58;32;120;9;121;9;122] (DecOpts None None None) (JArr [(JPrim (PStr (lit "x"))); (JPrim (PStr (lit "y"))); (JPrim (PStr (lit "z")))]) = true.
Proof. vm_compute. reflexivity. Qed.
(* parses root-level array with pipe delimiter *)
Example fixture_65 : dec_test (lit "[3|]: x|y|z") (DecOpts None None None) (JArr [(JPrim (PStr (lit "x"))); (JPrim (PStr (lit "y"))); (JPrim (PStr (lit "z")))]) = true.
Proof. vm_compute. reflexivity. Qed.
(* parses root-level array of objects with tab delimiter *)
Example fixture_66 : dec_test [91;50;9;93;123;105;100;125;58;10;32;32;49;10;32;32;50] (DecOpts None None None) (JArr [(JObj [((lit "id"), (jnum (lit "1")))]); (JObj [((lit "id"), (jnum (lit "2")))])]) = true.
Proof. vm_compute. reflexivity. Qed.
(* parses root-level array of objects with pipe delimiter *)
Example fixture_67 : dec_test (lit "[2|]{id}:
  1
  2") (DecOpts None None None) (JArr [(JObj [((lit "id"), (jnum (lit "1")))]); (JObj [((lit "id"), (jnum (lit "2")))])]) = true.
Proof. vm_compute. reflexivity. Qed.
(* parses values containing tab delimiter when quoted *)
Example fixture_68 : dec_test [105;116;101;109;115;91;51;9;93;58;32;97;9;34;98;92;116;99;34;9;100] (DecOpts None None None) (JObj [((lit "items"), (JArr [(JPrim (PStr (lit "a"))); (JPrim (PStr [98;9;99])); (JPrim (PStr (lit "d")))]))]) = true.
Proof. vm_compute. reflexivity. Qed.
(* parses values containing pipe delimiter when quoted *)
Example fixture_69 : dec_test (lit "items[3|]: a|""b|c""|d") (DecOpts None None None) (JObj [((lit "items"), (JArr [(JPrim (PStr (lit "a"))); (JPrim (PStr (lit "b|c"))); (JPrim (PStr (lit "d")))]))]) = true.
Proof. vm_compute. reflexivity. Qed.
(* does not split on commas when using tab delimiter *)
Example fixture_70 : dec_test [105;116;101;109;115;91;50;9;93;58;32;97;44;98;9;99;44;100] (DecOpts None None None) (JObj [((lit "items"), (JArr [(JPrim (PStr (lit "a,b"))); (JPrim (PStr (lit "c,d")))]))]) = true.
Proof. vm_compute. reflexivity. Qed.
(* does not split on commas when using pipe delimiter *)
Example fixture_71 : dec_test (lit "items[2|]: a,b|c,d") (DecOpts None None None) (JObj [((lit "items"), (JArr [(JPrim (PStr (lit "a,b"))); (JPrim (PStr (lit "c,d")))]))]) = true.
Proof. vm_compute. reflexivity. Qed.
(* parses tabular values containing comma with comma delimiter *)
Example fixture_72 : dec_test (lit "items[2]{id,note}:
  1,""a,b""
  2,""c,d""") (DecOpts None None None) (JObj [((lit "items"), (JArr [(JObj [((lit "id"), (jnum (lit "1"))); ((lit "note"), (JPrim (PStr (lit "a,b"))))]); (JObj [((lit "id"), (jnum (lit "2"))); ((lit "note"), (JPrim (PStr (lit "c,d"))))])]))]) = true.
Proof. vm_compute. reflexivity. Qed.
(* does not require quoting commas with tab delimiter *)
Example fixture_73 : dec_test [105;116;101;109;115;91;50;9;93;123;105;100;9;110;111;116;101;125;58;10;32;32;49;9;97;44;98;10;32;32;50;9;99;44;100] (DecOpts None None None) (JObj [((lit "items"), (JArr [(JObj [((lit "id"), (jnum (lit "1"))); ((lit "note"), (JPrim (PStr (lit "a,b"))))]); (JObj [((lit "id"), (jnum (lit "2"))); ((lit "note"), (JPrim (PStr (lit "c,d"))))])]))]) = true.
Proof. vm_compute. reflexivity. Qed.
(* does not require quoting commas in object values *)
Example fixture_74 : dec_test (lit "note: a,b") (DecOpts None None None) (JObj [((lit "note"), (JPrim (PStr (lit "a,b"))))]) = true.
Proof. vm_compute. reflexivity. Qed.
(* object values in list items follow document delimiter *)
Example fixture_75 : dec_test [105;116;101;109;115;91;50;9;93;58;10;32;32;45;32;115;116;97;116;117;115;58;32;97;44;98;10;32;32;45;32;115;116;97;116;117;115;58;32;99;44;100] (DecOpts None None None) (JObj [((lit "items"), (JArr [(JObj [((lit "status"), (JPrim (PStr (lit "a,b"))))]); (JObj [((lit "status"), (JPrim (PStr (lit "c,d"))))])]))]) = true.
Proof. vm_compute. reflexivity. Qed.
(* object values with comma must be quoted when document delimiter is comma *)
Example fixture_76 : dec_test (lit "items[2]:
  - status: ""a,b""
  - status: ""c,d""") (DecOpts None None None) (JObj [((lit "items"), (JArr [(JObj [((lit "status"), (JPrim (PStr (lit "a,b"))))]); (JObj [((lit "status"), (JPrim (PStr (lit "c,d"))))])]))]) = true.
Proof. vm_compute. reflexivity. Qed.
(* parses nested array values containing pipe delimiter *)
Example fixture_77 : dec_test (lit "pairs[1|]:
  - [2|]: a|""b|c""") (DecOpts None None None) (JObj [((lit "pairs"), (JArr [(JArr [(JPrim (PStr (lit "a"))); (JPrim (PStr (lit "b|c")))])]))]) = true.
Proof. vm_compute. reflexivity. Qed.
(* parses nested array values containing tab delimiter *)
Example fixture_78 : dec_test [112;97;105;114;115;91;49;9;93;58;10;32;32;45;32;91;50;9;93;58;32;97;9;34;98;92;116;99;34] (DecOpts None None None) (JObj [((lit "pairs"), (JArr [(JArr [(JPrim (PStr (lit "a"))); (JPrim (PStr [98;9;99]))])]))]) = true.
Proof. vm_compute. reflexivity. Qed.
(* preserves quoted ambiguity with pipe delimiter *)
Example fixture_79 : dec_test (lit "items[3|]: ""true""|""42""|""-3.14""") (DecOpts None None None) (JObj [((lit "items"), (JArr [(JPrim (PStr (lit "true"))); (JPrim (PStr (lit "42"))); (JPrim (PStr (lit "-3.14")))]))]) = true.
Proof. vm_compute. reflexivity. Qed.
(* preserves quoted ambiguity with tab delimiter *)
Example fixture_80 : dec_test [105;116;101;109;115;91;51;9;93;58;32;34;116;114;117;101;34;9;34;52;50;34;9;34;45;51;46;49;52;34] (DecOpts None None None) (JObj [((lit "items"), (JArr [(JPrim (PStr (lit "true"))); (JPrim (PStr (lit "42"))); (JPrim (PStr (lit "-3.14")))]))]) = true.
Proof. vm_compute. reflexivity. Qed.
(* parses structural-looking strings when quoted with pipe delimiter *)
Example fixture_81 : dec_test (lit "items[3|]: ""[5]""|""{key}""|""- item""") (DecOpts None None None) (JObj [((lit "items"), (JArr [(JPrim (PStr (lit "[5]"))); (JPrim (PStr (lit "{key}"))); (JPrim (PStr (lit "- item")))]))]) = true.
Proof. vm_compute. reflexivity. Qed.
(* parses structural-looking strings when quoted with tab delimiter *)
Example fixture_82 : dec_test [105;116;101;109;115;91;51;9;93;58;32;34;91;53;93;34;9;34;123;107;101;121;125;34;9;34;45;32;105;116;101;109;34] (DecOpts None None None) (JObj [((lit "items"), (JArr [(JPrim (PStr (lit "[5]"))); (JPrim (PStr (lit "{key}"))); (JPrim (PStr (lit "- item")))]))]) = true.
Proof. vm_compute. reflexivity. Qed.
(* parses tabular headers with keys containing the active delimiter *)
Example fixture_83 : dec_test (lit "items[2|]{""a|b""}:
  1
  2") (DecOpts None None None) (JObj [((lit "items"), (JArr [(JObj [((lit "a|b"), (jnum (lit "1")))]); (JObj [((lit "a|b"), (jnum (lit "2")))])]))]) = true.
Proof. vm_compute. reflexivity. Qed.

(* decode/indentation-errors.json *)
(* throws on object field with non-multiple indentation (3 spaces with indent=2) *)
Example fixture_84 : dec_err (lit "a:
   b: 1") (DecOpts (Some 2%nat) (Some true) None) = true.
Proof. vm_compute. reflexivity. Qed.
(* throws on list item with non-multiple indentation (3 spaces with indent=2) *)
Example fixture_85 : dec_err (lit "items[2]:
   - id: 1
   - id: 2") (DecOpts (Some 2%nat) (Some true) None) = true.
Proof. vm_compute. reflexivity. Qed.
(* throws on non-multiple indentation with custom indent=4 (3 spaces) *)
Example fixture_86 : dec_err (lit "a:
   b: 1") (DecOpts (Some 4%nat) (Some true) None) = true.
Proof. vm_compute. reflexivity. Qed.
(* accepts correct indentation with custom indent size (4 spaces with indent=4) *)
Example fixture_87 : dec_test (lit "a:
    b: 1") (DecOpts (Some 4%nat) (Some true) None) (JObj [((lit "a"), (JObj [((lit "b"), (jnum (lit "1")))]))]) = true.
Proof. vm_compute. reflexivity. Qed.
(* throws on tab character used in indentation *)
Example fixture_88 : dec_err [97;58;10;9;98;58;32;49] (DecOpts None (Some true) None) = true.
Proof. vm_compute. reflexivity. Qed.
(* throws on mixed tabs and spaces in indentation *)
Example fixture_89 : dec_err [97;58;10;32;9;98;58;32;49] (DecOpts None (Some true) None) = true.
Proof. vm_compute. reflexivity. Qed.
(* throws on tab at start of line *)
Example fixture_90 : dec_err [9;97;58;32;49] (DecOpts None (Some true) None) = true.
Proof. vm_compute. reflexivity. Qed.
(* accepts tabs in quoted string values *)
Example fixture_91 : dec_test [116;101;120;116;58;32;34;104;101;108;108;111;9;119;111;114;108;100;34] (DecOpts None (Some true) None) (JObj [((lit "text"), (JPrim (PStr [104;101;108;108;111;9;119;111;114;108;100])))]) = true.
Proof. vm_compute. reflexivity. Qed.
(* accepts tabs in quoted keys *)
Example fixture_92 : dec_test [34;107;101;121;9;116;97;98;34;58;32;118;97;108;117;101] (DecOpts None (Some true) None) (JObj [([107;101;121;9;116;97;98], (JPrim (PStr (lit "value"))))]) = true.
Proof. vm_compute. reflexivity. Qed.
(* accepts tabs in quoted array elements *)
Example fixture_93 : dec_test [105;116;101;109;115;91;50;93;58;32;34;97;9;98;34;44;34;99;9;100;34] (DecOpts None (Some true) None) (JObj [((lit "items"), (JArr [(JPrim (PStr [97;9;98])); (JPrim (PStr [99;9;100]))]))]) = true.
Proof. vm_compute. reflexivity. Qed.
(* accepts non-multiple indentation when strict=false *)
Example fixture_94 : dec_test (lit "a:
   b: 1") (DecOpts (Some 2%nat) (Some false) None) (JObj [((lit "a"), (JObj [((lit "b"), (jnum (lit "1")))]))]) = true.
Proof. vm_compute. reflexivity. Qed.
(* accepts deeply nested non-multiples when strict=false *)
Example fixture_95 : dec_test (lit "a:
   b:
     c: 1") (DecOpts (Some 2%nat) (Some false) None) (JObj [((lit "a"), (JObj [((lit "b"), (JObj [((lit "c"), (jnum (lit "1")))]))]))]) = true.
Proof. vm_compute. reflexivity. Qed.
(* parses empty lines without validation errors *)
Example fixture_96 : dec_test (lit "a: 1

b: 2") (DecOpts None (Some true) None) (JObj [((lit "a"), (jnum (lit "1"))); ((lit "b"), (jnum (lit "2")))]) = true.
Proof. vm_compute. reflexivity. Qed.
(* parses root-level content (0 indentation) as always valid *)
Example fixture_97 : dec_test (lit "a: 1
b: 2
c: 3") (DecOpts None (Some true) None) (JObj [((lit "a"), (jnum (lit "1"))); ((lit "b"), (jnum (lit "2"))); ((lit "c"), (jnum (lit "3")))]) = true.
Proof. vm_compute. reflexivity. Qed.
(* parses lines with only spaces without validation if empty *)
Example fixture_98 : dec_test (lit "a: 1
   
b: 2") (DecOpts None (Some true) None) (JObj [((lit "a"), (jnum (lit "1"))); ((lit "b"), (jnum (lit "2")))]) = true.
Proof. vm_compute. reflexivity. Qed.

(* decode/numbers.json *)
(* parses number with trailing zeros in fractional part *)
Example fixture_99 : dec_test (lit "value: 1.5000") (DecOpts None None None) (JObj [((lit "value"), (jnum (lit "1.5")))]) = true.
Proof. vm_compute. reflexivity. Qed.
(* parses negative number with positive exponent *)
Example fixture_100 : dec_test (lit "value: -1E+03") (DecOpts None None None) (JObj [((lit "value"), (jnum (lit "-1000")))]) = true.
Proof. vm_compute. reflexivity. Qed.
(* parses lowercase exponent *)
Example fixture_101 : dec_test (lit "value: 2.5e2") (DecOpts None None None) (JObj [((lit "value"), (jnum (lit "250")))]) = true.
Proof. vm_compute. reflexivity. Qed.
(* parses uppercase exponent with negative sign *)
Example fixture_102 : dec_test (lit "value: 3E-02") (DecOpts None None None) (JObj [((lit "value"), (jnum (lit "0.03")))]) = true.
Proof. vm_compute. reflexivity. Qed.
(* parses negative zero as zero *)
Example fixture_103 : dec_test (lit "value: -0") (DecOpts None None None) (JObj [((lit "value"), (jnum (lit "0")))]) = true.
Proof. vm_compute. reflexivity. Qed.
(* parses negative zero with fractional part *)
Example fixture_104 : dec_test (lit "value: -0.0") (DecOpts None None None) (JObj [((lit "value"), (jnum (lit "0")))]) = true.
Proof. vm_compute. reflexivity. Qed.
(* parses array with mixed numeric forms *)
Example fixture_105 : dec_test (lit "nums[5]: 42,-1E+03,1.5000,-0,2.5e2") (DecOpts None None None) (JObj [((lit "nums"), (JArr [(jnum (lit "42")); (jnum (lit "-1000")); (jnum (lit "1.5")); (jnum (lit "0")); (jnum (lit "250"))]))]) = true.
Proof. vm_compute. reflexivity. Qed.
(* treats leading zero as string not number *)
Example fixture_106 : dec_test (lit "value: 05") (DecOpts None None None) (JObj [((lit "value"), (JPrim (PStr (lit "05"))))]) = true.
Proof. vm_compute. reflexivity. Qed.
(* parses very small exponent *)
Example fixture_107 : dec_test (lit "value: 1e-10") (DecOpts None None None) (JObj [((lit "value"), (jnum (lit "0.0000000001")))]) = true.
Proof. vm_compute. reflexivity. Qed.
(* parses integer with positive exponent *)
Example fixture_108 : dec_test (lit "value: 5E+00") (DecOpts None None None) (JObj [((lit "value"), (jnum (lit "5")))]) = true.
Proof. vm_compute. reflexivity. Qed.
(* parses zero with exponent as number *)
Example fixture_109 : dec_test (lit "value: 0e1") (DecOpts None None None) (JObj [((lit "value"), (jnum (lit "0")))]) = true.
Proof. vm_compute. reflexivity. Qed.
(* parses negative zero with exponent as number *)
Example fixture_110 : dec_test (lit "value: -0e1") (DecOpts None None None) (JObj [((lit "value"), (jnum (lit "0")))]) = true.
Proof. vm_compute. reflexivity. Qed.
(* parses exponent notation *)
Example fixture_111 : dec_test (lit "1e6") (DecOpts None None None) (jnum (lit "1000000")) = true.
Proof. vm_compute. reflexivity. Qed.
(* parses exponent notation with uppercase E *)
Example fixture_112 : dec_test (lit "1E+6") (DecOpts None None None) (jnum (lit "1000000")) = true.
Proof. vm_compute. reflexivity. Qed.
(* parses negative exponent notation *)
Example fixture_113 : dec_test (lit "-1e-3") (DecOpts None None None) (jnum (lit "-0.001")) = true.
Proof. vm_compute. reflexivity. Qed.
(* treats unquoted leading-zero number as string *)
Example fixture_114 : dec_test (lit "05") (DecOpts None None None) (JPrim (PStr (lit "05"))) = true.
Proof. vm_compute. reflexivity. Qed.
(* treats unquoted multi-leading-zero as string *)
Example fixture_115 : dec_test (lit "007") (DecOpts None None None) (JPrim (PStr (lit "007"))) = true.
Proof. vm_compute. reflexivity. Qed.
(* treats unquoted octal-like as string *)
Example fixture_116 : dec_test (lit "0123") (DecOpts None None None) (JPrim (PStr (lit "0123"))) = true.
Proof. vm_compute. reflexivity. Qed.
(* treats leading-zero in object value as string *)
Example fixture_117 : dec_test (lit "a: 05") (DecOpts None None None) (JObj [((lit "a"), (JPrim (PStr (lit "05"))))]) = true.
Proof. vm_compute. reflexivity. Qed.
(* treats leading-zeros in array as strings *)
Example fixture_118 : dec_test (lit "nums[3]: 05,007,0123") (DecOpts None None None) (JObj [((lit "nums"), (JArr [(JPrim (PStr (lit "05"))); (JPrim (PStr (lit "007"))); (JPrim (PStr (lit "0123")))]))]) = true.
Proof. vm_compute. reflexivity. Qed.
(* treats unquoted negative leading-zero number as string *)
Example fixture_119 : dec_test (lit "-05") (DecOpts None None None) (JPrim (PStr (lit "-05"))) = true.
Proof. vm_compute. reflexivity. Qed.
(* treats negative leading-zeros in array as strings *)
Example fixture_120 : dec_test (lit "nums[2]: -05,-007") (DecOpts None None None) (JObj [((lit "nums"), (JArr [(JPrim (PStr (lit "-05"))); (JPrim (PStr (lit "-007")))]))]) = true.
Proof. vm_compute. reflexivity. Qed.

(* decode/objects.json *)
(* parses objects with primitive values *)
Example fixture_121 : dec_test (lit "id: 123
name: Ada
active: true") (DecOpts None None None) (JObj [((lit "id"), (jnum (lit "123"))); ((lit "name"), (JPrim (PStr (lit "Ada")))); ((lit "active"), (JPrim (PBool true)))]) = true.
Proof. vm_compute. reflexivity. Qed.
(* parses null values in objects *)
Example fixture_122 : dec_test (lit "id: 123
value: null") (DecOpts None None None) (JObj [((lit "id"), (jnum (lit "123"))); ((lit "value"), (JPrim PNull))]) = true.
Proof. vm_compute. reflexivity. Qed.
(* parses empty nested object header *)
Example fixture_123 : dec_test (lit "user:") (DecOpts None None None) (JObj [((lit "user"), (JObj []))]) = true.
Proof. vm_compute. reflexivity. Qed.
(* parses quoted object value with colon *)
Example fixture_124 : dec_test (lit "note: ""a:b""") (DecOpts None None None) (JObj [((lit "note"), (JPrim (PStr (lit "a:b"))))]) = true.
Proof. vm_compute. reflexivity. Qed.
(* parses quoted object value with comma *)
Example fixture_125 : dec_test (lit "note: ""a,b""") (DecOpts None None None) (JObj [((lit "note"), (JPrim (PStr (lit "a,b"))))]) = true.
Proof. vm_compute. reflexivity. Qed.
(* parses quoted object value with newline escape *)
Example fixture_126 : dec_test (lit "text: ""line1\nline2""") (DecOpts None None None) (JObj [((lit "text"), (JPrim (PStr (lit "line1
line2"))))]) = true.
Proof. vm_compute. reflexivity. Qed.
(* parses quoted object value with escaped quotes *)
Example fixture_127 : dec_test (lit "text: ""say \""hello\""""") (DecOpts None None None) (JObj [((lit "text"), (JPrim (PStr (lit "say ""hello"""))))]) = true.
Proof. vm_compute. reflexivity. Qed.
(* parses quoted object value with leading/trailing spaces *)
Example fixture_128 : dec_test (lit "text: "" padded """) (DecOpts None None None) (JObj [((lit "text"), (JPrim (PStr (lit " padded "))))]) = true.
Proof. vm_compute. reflexivity. Qed.
(* parses quoted object value with only spaces *)
Example fixture_129 : dec_test (lit "text: ""  """) (DecOpts None None None) (JObj [((lit "text"), (JPrim (PStr (lit "  "))))]) = true.
Proof. vm_compute. reflexivity. Qed.
(* parses quoted string value that looks like true *)
Example fixture_130 : dec_test (lit "v: ""true""") (DecOpts None None None) (JObj [((lit "v"), (JPrim (PStr (lit "true"))))]) = true.
Proof. vm_compute. reflexivity. Qed.
(* parses quoted string value that looks like integer *)
Example fixture_131 : dec_test (lit "v: ""42""") (DecOpts None None None) (JObj [((lit "v"), (JPrim (PStr (lit "42"))))]) = true.
Proof. vm_compute. reflexivity. Qed.
(* parses quoted string value that looks like negative decimal *)
Example fixture_132 : dec_test (lit "v: ""-7.5""") (DecOpts None None None) (JObj [((lit "v"), (JPrim (PStr (lit "-7.5"))))]) = true.
Proof. vm_compute. reflexivity. Qed.
(* parses quoted key with colon *)
Example fixture_133 : dec_test (lit """order:id"": 7") (DecOpts None None None) (JObj [((lit "order:id"), (jnum (lit "7")))]) = true.
Proof. vm_compute. reflexivity. Qed.
(* parses quoted key with brackets *)
Example fixture_134 : dec_test (lit """[index]"": 5") (DecOpts None None None) (JObj [((lit "[index]"), (jnum (lit "5")))]) = true.
Proof. vm_compute. reflexivity. Qed.
(* parses quoted key with braces *)
Example fixture_135 : dec_test (lit """{key}"": 5") (DecOpts None None None) (JObj [((lit "{key}"), (jnum (lit "5")))]) = true.
Proof. vm_compute. reflexivity. Qed.
(* parses quoted key with comma *)
Example fixture_136 : dec_test (lit """a,b"": 1") (DecOpts None None None) (JObj [((lit "a,b"), (jnum (lit "1")))]) = true.
Proof. vm_compute. reflexivity. Qed.
(* parses quoted key with spaces *)
Example fixture_137 : dec_test (lit """full name"": Ada") (DecOpts None None None) (JObj [((lit "full name"), (JPrim (PStr (lit "Ada"))))]) = true.
Proof. vm_compute. reflexivity. Qed.
(* parses quoted key with leading hyphen *)
Example fixture_138 : dec_test (lit """-lead"": 1") (DecOpts None None None) (JObj [((lit "-lead"), (jnum (lit "1")))]) = true.
Proof. vm_compute. reflexivity. Qed.
(* parses quoted key with leading and trailing spaces *)
Example fixture_139 : dec_test (lit """ a "": 1") (DecOpts None None None) (JObj [((lit " a "), (jnum (lit "1")))]) = true.
Proof. vm_compute. reflexivity. Qed.
(* parses quoted numeric key *)
Example fixture_140 : dec_test (lit """123"": x") (DecOpts None None None) (JObj [((lit "123"), (JPrim (PStr (lit "x"))))]) = true.
Proof. vm_compute. reflexivity. Qed.
(* parses quoted empty string key *)
Example fixture_141 : dec_test (lit """"": 1") (DecOpts None None None) (JObj [((lit ""), (jnum (lit "1")))]) = true.
Proof. vm_compute. reflexivity. Qed.
(* parses dotted keys as identifiers *)
Example fixture_142 : dec_test (lit "user.name: Ada") (DecOpts None None None) (JObj [((lit "user.name"), (JPrim (PStr (lit "Ada"))))]) = true.
Proof. vm_compute. reflexivity. Qed.
(* parses underscore-prefixed keys *)
Example fixture_143 : dec_test (lit "_private: 1") (DecOpts None None None) (JObj [((lit "_private"), (jnum (lit "1")))]) = true.
Proof. vm_compute. reflexivity. Qed.
(* parses underscore-containing keys *)
Example fixture_144 : dec_test (lit "user_name: 1") (DecOpts None None None) (JObj [((lit "user_name"), (jnum (lit "1")))]) = true.
Proof. vm_compute. reflexivity. Qed.
(* unescapes newline in key *)
Example fixture_145 : dec_test (lit """line\nbreak"": 1") (DecOpts None None None) (JObj [((lit "line
break"), (jnum (lit "1")))]) = true.
Proof. vm_compute. reflexivity. Qed.
(* unescapes tab in key *)
Example fixture_146 : dec_test (lit """tab\there"": 2") (DecOpts None None None) (JObj [([116;97;98;9;104;101;114;101], (jnum (lit "2")))]) = true.
Proof. vm_compute. reflexivity. Qed.
(* unescapes quotes in key *)
Example fixture_147 : dec_test (lit """he said \""hi\"""": 1") (DecOpts None None None) (JObj [((lit "he said ""hi"""), (jnum (lit "1")))]) = true.
Proof. vm_compute. reflexivity. Qed.
(* parses deeply nested objects with indentation *)
Example fixture_148 : dec_test (lit "a:
  b:
    c: deep") (DecOpts None None None) (JObj [((lit "a"), (JObj [((lit "b"), (JObj [((lit "c"), (JPrim (PStr (lit "deep"))))]))]))]) = true.
Proof. vm_compute. reflexivity. Qed.

(* decode/path-expansion.json *)
(* expands dotted key to nested object in safe mode *)
Example fixture_149 : dec_test (lit "a.b.c: 1") (DecOpts None None (Some EPSafe)) (JObj [((lit "a"), (JObj [((lit "b"), (JObj [((lit "c"), (jnum (lit "1")))]))]))]) = true.
Proof. vm_compute. reflexivity. Qed.
(* expands dotted key with inline array *)
Example fixture_150 : dec_test (lit "data.meta.items[2]: a,b") (DecOpts None None (Some EPSafe)) (JObj [((lit "data"), (JObj [((lit "meta"), (JObj [((lit "items"), (JArr [(JPrim (PStr (lit "a"))); (JPrim (PStr (lit "b")))]))]))]))]) = true.
Proof. vm_compute. reflexivity. Qed.
(* expands dotted key with tabular array *)
Example fixture_151 : dec_test (lit "a.b.items[2]{id,name}:
  1,A
  2,B") (DecOpts None None (Some EPSafe)) (JObj [((lit "a"), (JObj [((lit "b"), (JObj [((lit "items"), (JArr [(JObj [((lit "id"), (jnum (lit "1"))); ((lit "name"), (JPrim (PStr (lit "A"))))]); (JObj [((lit "id"), (jnum (lit "2"))); ((lit "name"), (JPrim (PStr (lit "B"))))])]))]))]))]) = true.
Proof. vm_compute. reflexivity. Qed.
(* preserves literal dotted keys when expansion is off *)
Example fixture_152 : dec_test (lit "user.name: Ada") (DecOpts None None (Some EPOff)) (JObj [((lit "user.name"), (JPrim (PStr (lit "Ada"))))]) = true.
Proof. vm_compute. reflexivity. Qed.
(* expands and deep-merges preserving document-order insertion *)
Example fixture_153 : dec_test (lit "a.b.c: 1
a.b.d: 2
a.e: 3") (DecOpts None None (Some EPSafe)) (JObj [((lit "a"), (JObj [((lit "b"), (JObj [((lit "c"), (jnum (lit "1"))); ((lit "d"), (jnum (lit "2")))])); ((lit "e"), (jnum (lit "3")))]))]) = true.
Proof. vm_compute. reflexivity. Qed.
(* throws on expansion conflict (object vs primitive) when strict=true *)
Example fixture_154 : dec_err (lit "a.b: 1
a: 2") (DecOpts None (Some true) (Some EPSafe)) = true.
Proof. vm_compute. reflexivity. Qed.
(* throws on expansion conflict (object vs array) when strict=true *)
Example fixture_155 : dec_err (lit "a.b: 1
a[2]: 2,3") (DecOpts None (Some true) (Some EPSafe)) = true.
Proof. vm_compute. reflexivity. Qed.
(* applies LWW when strict=false (primitive overwrites expanded object) *)
Example fixture_156 : dec_test (lit "a.b: 1
a: 2") (DecOpts None (Some false) (Some EPSafe)) (JObj [((lit "a"), (jnum (lit "2")))]) = true.
Proof. vm_compute. reflexivity. Qed.
(* applies LWW when strict=false (expanded object overwrites primitive) *)
Example fixture_157 : dec_test (lit "a: 1
a.b: 2") (DecOpts None (Some false) (Some EPSafe)) (JObj [((lit "a"), (JObj [((lit "b"), (jnum (lit "2")))]))]) = true.
Proof. vm_compute. reflexivity. Qed.
(* preserves quoted dotted key as literal when expandPaths=safe *)
Example fixture_158 : dec_test (lit "a.b: 1
""c.d"": 2") (DecOpts None None (Some EPSafe)) (JObj [((lit "a"), (JObj [((lit "b"), (jnum (lit "1")))])); ((lit "c.d"), (jnum (lit "2")))]) = true.
Proof. vm_compute. reflexivity. Qed.
(* preserves non-IdentifierSegment keys as literals *)
Example fixture_159 : dec_test (lit "full-name.x: 1") (DecOpts None None (Some EPSafe)) (JObj [((lit "full-name.x"), (jnum (lit "1")))]) = true.
Proof. vm_compute. reflexivity. Qed.
(* expands keys creating empty nested objects *)
Example fixture_160 : dec_test (lit "a.b.c:") (DecOpts None None (Some EPSafe)) (JObj [((lit "a"), (JObj [((lit "b"), (JObj [((lit "c"), (JObj []))]))]))]) = true.
Proof. vm_compute. reflexivity. Qed.

(* decode/primitives.json *)
(* parses safe unquoted string *)
Example fixture_161 : dec_test (lit "hello") (DecOpts None None None) (JPrim (PStr (lit "hello"))) = true.
Proof. vm_compute. reflexivity. Qed.
(* parses unquoted string with underscore and numbers *)
Example fixture_162 : dec_test (lit "Ada_99") (DecOpts None None None) (JPrim (PStr (lit "Ada_99"))) = true.
Proof. vm_compute. reflexivity. Qed.
(* parses empty quoted string *)
Example fixture_163 : dec_test (lit """""") (DecOpts None None None) (JPrim (PStr (lit ""))) = true.
Proof. vm_compute. reflexivity. Qed.
(* parses quoted string with newline escape *)
Example fixture_164 : dec_test (lit """line1\nline2""") (DecOpts None None None) (JPrim (PStr (lit "line1
line2"))) = true.
Proof. vm_compute. reflexivity. Qed.
(* parses quoted string with tab escape *)
Example fixture_165 : dec_test (lit """tab\there""") (DecOpts None None None) (JPrim (PStr [116;97;98;9;104;101;114;101])) = true.
Proof. vm_compute. reflexivity. Qed.
(* parses quoted string with carriage return escape *)
Example fixture_166 : dec_test (lit """return\rcarriage""") (DecOpts None None None) (JPrim (PStr [114;101;116;117;114;110;13;99;97;114;114;105;97;103;101])) = true.
Proof. vm_compute. reflexivity. Qed.
(* parses quoted string with backslash escape *)
Example fixture_167 : dec_test (lit """C:\\Users\\path""") (DecOpts None None None) (JPrim (PStr (lit "C:\Users\path"))) = true.
Proof. vm_compute. reflexivity. Qed.
(* parses quoted string with escaped quotes *)
Example fixture_168 : dec_test (lit """say \""hello\""""") (DecOpts None None None) (JPrim (PStr (lit "say ""hello"""))) = true.
Proof. vm_compute. reflexivity. Qed.
(* parses Unicode string *)
Example fixture_169 : dec_test [99;97;102;233] (DecOpts None None None) (JPrim (PStr [99;97;102;233])) = true.
Proof. vm_compute. reflexivity. Qed.
(* parses Chinese characters *)
Example fixture_170 : dec_test [20320;22909] (DecOpts None None None) (JPrim (PStr [20320;22909])) = true.
Proof. vm_compute. reflexivity. Qed.
(* parses emoji *)
Example fixture_171 : dec_test [128640] (DecOpts None None None) (JPrim (PStr [128640])) = true.
Proof. vm_compute. reflexivity. Qed.
(* parses string with emoji and spaces *)
Example fixture_172 : dec_test [104;101;108;108;111;32;128075;32;119;111;114;108;100] (DecOpts None None None) (JPrim (PStr [104;101;108;108;111;32;128075;32;119;111;114;108;100])) = true.
Proof. vm_compute. reflexivity. Qed.
(* parses positive integer *)
Example fixture_173 : dec_test (lit "42") (DecOpts None None None) (jnum (lit "42")) = true.
Proof. vm_compute. reflexivity. Qed.
(* parses decimal number *)
Example fixture_174 : dec_test (lit "3.14") (DecOpts None None None) (jnum (lit "3.14")) = true.
Proof. vm_compute. reflexivity. Qed.
(* parses negative integer *)
Example fixture_175 : dec_test (lit "-7") (DecOpts None None None) (jnum (lit "-7")) = true.
Proof. vm_compute. reflexivity. Qed.
(* parses true *)
Example fixture_176 : dec_test (lit "true") (DecOpts None None None) (JPrim (PBool true)) = true.
Proof. vm_compute. reflexivity. Qed.
(* parses false *)
Example fixture_177 : dec_test (lit "false") (DecOpts None None None) (JPrim (PBool false)) = true.
Proof. vm_compute. reflexivity. Qed.
(* parses null *)
Example fixture_178 : dec_test (lit "null") (DecOpts None None None) (JPrim PNull) = true.
Proof. vm_compute. reflexivity. Qed.
(* respects ambiguity quoting for true *)
Example fixture_179 : dec_test (lit """true""") (DecOpts None None None) (JPrim (PStr (lit "true"))) = true.
Proof. vm_compute. reflexivity. Qed.
(* respects ambiguity quoting for false *)
Example fixture_180 : dec_test (lit """false""") (DecOpts None None None) (JPrim (PStr (lit "false"))) = true.
Proof. vm_compute. reflexivity. Qed.
(* respects ambiguity quoting for null *)
Example fixture_181 : dec_test (lit """null""") (DecOpts None None None) (JPrim (PStr (lit "null"))) = true.
Proof. vm_compute. reflexivity. Qed.
(* respects ambiguity quoting for integer *)
Example fixture_182 : dec_test (lit """42""") (DecOpts None None None) (JPrim (PStr (lit "42"))) = true.
Proof. vm_compute. reflexivity. Qed.
(* respects ambiguity quoting for negative decimal *)
Example fixture_183 : dec_test (lit """-3.14""") (DecOpts None None None) (JPrim (PStr (lit "-3.14"))) = true.
Proof. vm_compute. reflexivity. Qed.
(* respects ambiguity quoting for scientific notation *)
Example fixture_184 : dec_test (lit """1e-6""") (DecOpts None None None) (JPrim (PStr (lit "1e-6"))) = true.
Proof. vm_compute. reflexivity. Qed.
(* respects ambiguity quoting for leading-zero *)
Example fixture_185 : dec_test (lit """05""") (DecOpts None None None) (JPrim (PStr (lit "05"))) = true.
Proof. vm_compute. reflexivity. Qed.

(* decode/root-form.json *)
(* parses empty document as empty object *)
Example fixture_186 : dec_test (lit "") (DecOpts None (Some true) None) (JObj []) = true.
Proof. vm_compute. reflexivity. Qed.

(* decode/validation-errors.json *)
(* throws on array length mismatch (inline primitives - too many) *)
Example fixture_187 : dec_err (lit "tags[2]: a,b,c") (DecOpts None None None) = true.
Proof. vm_compute. reflexivity. Qed.
(* throws on array length mismatch (list format - too many) *)
Example fixture_188 : dec_err (lit "items[1]:
  - 1
  - 2") (DecOpts None None None) = true.
Proof. vm_compute. reflexivity. Qed.
(* throws on tabular row value count mismatch with header field count *)
Example fixture_189 : dec_err (lit "items[2]{id,name}:
  1,Ada
  2") (DecOpts None None None) = true.
Proof. vm_compute. reflexivity. Qed.
(* throws on tabular row count mismatch with header length *)
Example fixture_190 : dec_err (lit "[1]{id}:
  1
  2") (DecOpts None None None) = true.
Proof. vm_compute. reflexivity. Qed.
(* throws on invalid escape sequence *)
Example fixture_191 : dec_err (lit """a\x""") (DecOpts None None None) = true.
Proof. vm_compute. reflexivity. Qed.
(* throws on unterminated string *)
Example fixture_192 : dec_err (lit """unterminated") (DecOpts None None None) = true.
Proof. vm_compute. reflexivity. Qed.
(* throws on missing colon in key-value context *)
Example fixture_193 : dec_err (lit "a:
  user") (DecOpts None None None) = true.
Proof. vm_compute. reflexivity. Qed.
(* throws on two primitives at root depth in strict mode *)
Example fixture_194 : dec_err (lit "hello
world") (DecOpts None (Some true) None) = true.
Proof. vm_compute. reflexivity. Qed.
(* throws on delimiter mismatch (header declares tab, row uses comma) *)
Example fixture_195 : dec_err [105;116;101;109;115;91;50;9;93;123;97;9;98;125;58;10;32;32;49;44;50;10;32;32;51;44;52] (DecOpts None None None) = true.
Proof. vm_compute. reflexivity. Qed.
(* throws on mismatched delimiter between bracket and brace fields *)
Example fixture_196 : dec_err [105;116;101;109;115;91;50;9;93;123;97;44;98;125;58;10;32;32;49;9;50;10;32;32;51;9;52] (DecOpts None (Some true) None) = true.
Proof. vm_compute. reflexivity. Qed.

(* decode/whitespace.json *)
(* tolerates spaces around commas in inline arrays *)
Example fixture_197 : dec_test (lit "tags[3]: a , b , c") (DecOpts None None None) (JObj [((lit "tags"), (JArr [(JPrim (PStr (lit "a"))); (JPrim (PStr (lit "b"))); (JPrim (PStr (lit "c")))]))]) = true.
Proof. vm_compute. reflexivity. Qed.
(* tolerates spaces around pipes in inline arrays *)
Example fixture_198 : dec_test (lit "tags[3|]: a | b | c") (DecOpts None None None) (JObj [((lit "tags"), (JArr [(JPrim (PStr (lit "a"))); (JPrim (PStr (lit "b"))); (JPrim (PStr (lit "c")))]))]) = true.
Proof. vm_compute. reflexivity. Qed.
(* tolerates spaces around tabs in inline arrays *)
Example fixture_199 : dec_test [116;97;103;115;91;51;9;93;58;32;97;32;9;32;98;32;9;32;99] (DecOpts None None None) (JObj [((lit "tags"), (JArr [(JPrim (PStr (lit "a"))); (JPrim (PStr (lit "b"))); (JPrim (PStr (lit "c")))]))]) = true.
Proof. vm_compute. reflexivity. Qed.
(* tolerates leading and trailing spaces in tabular row values *)
Example fixture_200 : dec_test (lit "items[2]{id,name}:
  1 , Alice 
  2 , Bob ") (DecOpts None None None) (JObj [((lit "items"), (JArr [(JObj [((lit "id"), (jnum (lit "1"))); ((lit "name"), (JPrim (PStr (lit "Alice"))))]); (JObj [((lit "id"), (jnum (lit "2"))); ((lit "name"), (JPrim (PStr (lit "Bob"))))])]))]) = true.
Proof. vm_compute. reflexivity. Qed.
(* tolerates spaces around delimiters with quoted values *)
Example fixture_201 : dec_test (lit "items[3]: ""a"" , ""b"" , ""c""") (DecOpts None None None) (JObj [((lit "items"), (JArr [(JPrim (PStr (lit "a"))); (JPrim (PStr (lit "b"))); (JPrim (PStr (lit "c")))]))]) = true.
Proof. vm_compute. reflexivity. Qed.
(* parses empty tokens as empty string *)
Example fixture_202 : dec_test (lit "items[3]: a,,c") (DecOpts None None None) (JObj [((lit "items"), (JArr [(JPrim (PStr (lit "a"))); (JPrim (PStr (lit ""))); (JPrim (PStr (lit "c")))]))]) = true.
Proof. vm_compute. reflexivity. Qed.

(* encode/arrays-nested.json *)
(* encodes nested arrays of primitives *)
Example fixture_203 : enc_test (JObj [((lit "pairs"), (JArr [(JArr [(JPrim (PStr (lit "a"))); (JPrim (PStr (lit "b")))]); (JArr [(JPrim (PStr (lit "c"))); (JPrim (PStr (lit "d")))])]))]) (EncOpts None None None None None) (lit "pairs[2]:
  - [2]: a,b
  - [2]: c,d") = true.
Proof. vm_compute. reflexivity. Qed.
(* quotes strings containing delimiters in nested arrays *)
Example fixture_204 : enc_test (JObj [((lit "pairs"), (JArr [(JArr [(JPrim (PStr (lit "a"))); (JPrim (PStr (lit "b")))]); (JArr [(JPrim (PStr (lit "c,d"))); (JPrim (PStr (lit "e:f"))); (JPrim (PStr (lit "true")))])]))]) (EncOpts None None None None None) (lit "pairs[2]:
  - [2]: a,b
  - [3]: ""c,d"",""e:f"",""true""") = true.
Proof. vm_compute. reflexivity. Qed.
(* encodes empty inner arrays *)
Example fixture_205 : enc_test (JObj [((lit "pairs"), (JArr [(JArr []); (JArr [])]))]) (EncOpts None None None None None) (lit "pairs[2]:
  - [0]:
  - [0]:") = true.
Proof. vm_compute. reflexivity. Qed.
(* encodes mixed-length inner arrays *)
Example fixture_206 : enc_test (JObj [((lit "pairs"), (JArr [(JArr [(jnum (lit "1"))]); (JArr [(jnum (lit "2")); (jnum (lit "3"))])]))]) (EncOpts None None None None None) (lit "pairs[2]:
  - [1]: 1
  - [2]: 2,3") = true.
Proof. vm_compute. reflexivity. Qed.
(* encodes root-level primitive array *)
Example fixture_207 : enc_test (JArr [(JPrim (PStr (lit "x"))); (JPrim (PStr (lit "y"))); (JPrim (PStr (lit "true"))); (JPrim (PBool true)); (jnum (lit "10"))]) (EncOpts None None None None None) (lit "[5]: x,y,""true"",true,10") = true.
Proof. vm_compute. reflexivity. Qed.
(* encodes root-level array of uniform objects in tabular format *)
Example fixture_208 : enc_test (JArr [(JObj [((lit "id"), (jnum (lit "1")))]); (JObj [((lit "id"), (jnum (lit "2")))])]) (EncOpts None None None None None) (lit "[2]{id}:
  1
  2") = true.
Proof. vm_compute. reflexivity. Qed.
(* encodes root-level array of non-uniform objects in list format *)
Example fixture_209 : enc_test (JArr [(JObj [((lit "id"), (jnum (lit "1")))]); (JObj [((lit "id"), (jnum (lit "2"))); ((lit "name"), (JPrim (PStr (lit "Ada"))))])]) (EncOpts None None None None None) (lit "[2]:
  - id: 1
  - id: 2
    name: Ada") = true.
Proof. vm_compute. reflexivity. Qed.
(* encodes root-level array mixing primitive, object, and array of objects in list format *)
Example fixture_210 : enc_test (JArr [(JPrim (PStr (lit "summary"))); (JObj [((lit "id"), (jnum (lit "1"))); ((lit "name"), (JPrim (PStr (lit "Ada"))))]); (JArr [(JObj [((lit "id"), (jnum (lit "2")))]); (JObj [((lit "status"), (JPrim (PStr (lit "draft"))))])])]) (EncOpts None None None None None) (lit "[3]:
  - summary
  - id: 1
    name: Ada
  - [2]:
    - id: 2
    - status: draft") = true.
Proof. vm_compute. reflexivity. Qed.
(* encodes root-level arrays of arrays *)
Example fixture_211 : enc_test (JArr [(JArr [(jnum (lit "1")); (jnum (lit "2"))]); (JArr [])]) (EncOpts None None None None None) (lit "[2]:
  - [2]: 1,2
  - [0]:") = true.
Proof. vm_compute. reflexivity. Qed.
(* encodes empty root-level array *)
Example fixture_212 : enc_test (JArr []) (EncOpts None None None None None) (lit "[0]:") = true.
Proof. vm_compute. reflexivity. Qed.
(* encodes complex nested structure *)
Example fixture_213 : enc_test (JObj [((lit "user"), (JObj [((lit "id"), (jnum (lit "123"))); ((lit "name"), (JPrim (PStr (lit "Ada")))); ((lit "tags"), (JArr [(JPrim (PStr (lit "reading"))); (JPrim (PStr (lit "gaming")))])); ((lit "active"), (JPrim (PBool true))); ((lit "prefs"), (JArr []))]))]) (EncOpts None None None None None) (lit "user:
  id: 123
  name: Ada
  tags[2]: reading,gaming
  active: true
  prefs[0]:") = true.
Proof. vm_compute. reflexivity. Qed.
(* uses list format for arrays mixing primitives and objects *)
Example fixture_214 : enc_test (JObj [((lit "items"), (JArr [(jnum (lit "1")); (JObj [((lit "a"), (jnum (lit "1")))]); (JPrim (PStr (lit "text")))]))]) (EncOpts None None None None None) (lit "items[3]:
  - 1
  - a: 1
  - text") = true.
Proof. vm_compute. reflexivity. Qed.
(* uses list format for arrays mixing objects and arrays *)
Example fixture_215 : enc_test (JObj [((lit "items"), (JArr [(JObj [((lit "a"), (jnum (lit "1")))]); (JArr [(jnum (lit "1")); (jnum (lit "2"))])]))]) (EncOpts None None None None None) (lit "items[2]:
  - a: 1
  - [2]: 1,2") = true.
Proof. vm_compute. reflexivity. Qed.

(* encode/arrays-objects.json *)
(* uses list format for objects with different fields *)
Example fixture_216 : enc_test (JObj [((lit "items"), (JArr [(JObj [((lit "id"), (jnum (lit "1"))); ((lit "name"), (JPrim (PStr (lit "First"))))]); (JObj [((lit "id"), (jnum (lit "2"))); ((lit "name"), (JPrim (PStr (lit "Second")))); ((lit "extra"), (JPrim (PBool true)))])]))]) (EncOpts None None None None None) (lit "items[2]:
  - id: 1
    name: First
  - id: 2
    name: Second
    extra: true") = true.
Proof. vm_compute. reflexivity. Qed.
(* uses list format for objects with nested values *)
Example fixture_217 : enc_test (JObj [((lit "items"), (JArr [(JObj [((lit "id"), (jnum (lit "1"))); ((lit "nested"), (JObj [((lit "x"), (jnum (lit "1")))]))])]))]) (EncOpts None None None None None) (lit "items[1]:
  - id: 1
    nested:
      x: 1") = true.
Proof. vm_compute. reflexivity. Qed.
(* preserves field order in list items - array first *)
Example fixture_218 : enc_test (JObj [((lit "items"), (JArr [(JObj [((lit "nums"), (JArr [(jnum (lit "1")); (jnum (lit "2")); (jnum (lit "3"))])); ((lit "name"), (JPrim (PStr (lit "Ada"))))])]))]) (EncOpts None None None None None) (lit "items[1]:
  - nums[3]: 1,2,3
    name: Ada") = true.
Proof. vm_compute. reflexivity. Qed.
(* preserves field order in list items - primitive first *)
Example fixture_219 : enc_test (JObj [((lit "items"), (JArr [(JObj [((lit "name"), (JPrim (PStr (lit "Ada")))); ((lit "nums"), (JArr [(jnum (lit "1")); (jnum (lit "2")); (jnum (lit "3"))]))])]))]) (EncOpts None None None None None) (lit "items[1]:
  - name: Ada
    nums[3]: 1,2,3") = true.
Proof. vm_compute. reflexivity. Qed.
(* uses list format for objects containing arrays of arrays *)
Example fixture_220 : enc_test (JObj [((lit "items"), (JArr [(JObj [((lit "matrix"), (JArr [(JArr [(jnum (lit "1")); (jnum (lit "2"))]); (JArr [(jnum (lit "3")); (jnum (lit "4"))])])); ((lit "name"), (JPrim (PStr (lit "grid"))))])]))]) (EncOpts None None None None None) (lit "items[1]:
  - matrix[2]:
      - [2]: 1,2
      - [2]: 3,4
    name: grid") = true.
Proof. vm_compute. reflexivity. Qed.
(* uses tabular format for nested uniform object arrays *)
Example fixture_221 : enc_test (JObj [((lit "items"), (JArr [(JObj [((lit "users"), (JArr [(JObj [((lit "id"), (jnum (lit "1"))); ((lit "name"), (JPrim (PStr (lit "Ada"))))]); (JObj [((lit "id"), (jnum (lit "2"))); ((lit "name"), (JPrim (PStr (lit "Bob"))))])])); ((lit "status"), (JPrim (PStr (lit "active"))))])]))]) (EncOpts None None None None None) (lit "items[1]:
  - users[2]{id,name}:
      1,Ada
      2,Bob
    status: active") = true.
Proof. vm_compute. reflexivity. Qed.
(* uses list format for nested object arrays with mismatched keys *)
Example fixture_222 : enc_test (JObj [((lit "items"), (JArr [(JObj [((lit "users"), (JArr [(JObj [((lit "id"), (jnum (lit "1"))); ((lit "name"), (JPrim (PStr (lit "Ada"))))]); (JObj [((lit "id"), (jnum (lit "2")))])])); ((lit "status"), (JPrim (PStr (lit "active"))))])]))]) (EncOpts None None None None None) (lit "items[1]:
  - users[2]:
      - id: 1
        name: Ada
      - id: 2
    status: active") = true.
Proof. vm_compute. reflexivity. Qed.
(* uses list format for objects with multiple array fields *)
Example fixture_223 : enc_test (JObj [((lit "items"), (JArr [(JObj [((lit "nums"), (JArr [(jnum (lit "1")); (jnum (lit "2"))])); ((lit "tags"), (JArr [(JPrim (PStr (lit "a"))); (JPrim (PStr (lit "b")))])); ((lit "name"), (JPrim (PStr (lit "test"))))])]))]) (EncOpts None None None None None) (lit "items[1]:
  - nums[2]: 1,2
    tags[2]: a,b
    name: test") = true.
Proof. vm_compute. reflexivity. Qed.
(* uses list format for objects with only array fields *)
Example fixture_224 : enc_test (JObj [((lit "items"), (JArr [(JObj [((lit "nums"), (JArr [(jnum (lit "1")); (jnum (lit "2")); (jnum (lit "3"))])); ((lit "tags"), (JArr [(JPrim (PStr (lit "a"))); (JPrim (PStr (lit "b")))]))])]))]) (EncOpts None None None None None) (lit "items[1]:
  - nums[3]: 1,2,3
    tags[2]: a,b") = true.
Proof. vm_compute. reflexivity. Qed.
(* encodes objects with empty arrays in list format *)
Example fixture_225 : enc_test (JObj [((lit "items"), (JArr [(JObj [((lit "name"), (JPrim (PStr (lit "Ada")))); ((lit "data"), (JArr []))])]))]) (EncOpts None None None None None) (lit "items[1]:
  - name: Ada
    data[0]:") = true.
Proof. vm_compute. reflexivity. Qed.
(* uses canonical encoding for multi-field list-item objects with tabular arrays *)
Example fixture_226 : enc_test (JObj [((lit "items"), (JArr [(JObj [((lit "users"), (JArr [(JObj [((lit "id"), (jnum (lit "1")))]); (JObj [((lit "id"), (jnum (lit "2")))])])); ((lit "note"), (JPrim (PStr (lit "x"))))])]))]) (EncOpts None None None None None) (lit "items[1]:
  - users[2]{id}:
      1
      2
    note: x") = true.
Proof. vm_compute. reflexivity. Qed.
(* uses canonical encoding for single-field list-item tabular arrays *)
Example fixture_227 : enc_test (JObj [((lit "items"), (JArr [(JObj [((lit "users"), (JArr [(JObj [((lit "id"), (jnum (lit "1"))); ((lit "name"), (JPrim (PStr (lit "Ada"))))]); (JObj [((lit "id"), (jnum (lit "2"))); ((lit "name"), (JPrim (PStr (lit "Bob"))))])]))])]))]) (EncOpts None None None None None) (lit "items[1]:
  - users[2]{id,name}:
      1,Ada
      2,Bob") = true.
Proof. vm_compute. reflexivity. Qed.
(* places empty arrays on hyphen line when first *)
Example fixture_228 : enc_test (JObj [((lit "items"), (JArr [(JObj [((lit "data"), (JArr [])); ((lit "name"), (JPrim (PStr (lit "x"))))])]))]) (EncOpts None None None None None) (lit "items[1]:
  - data[0]:
    name: x") = true.
Proof. vm_compute. reflexivity. Qed.
(* encodes empty object list items as bare hyphen *)
Example fixture_229 : enc_test (JObj [((lit "items"), (JArr [(JPrim (PStr (lit "first"))); (JPrim (PStr (lit "second"))); (JObj [])]))]) (EncOpts None None None None None) (lit "items[3]:
  - first
  - second
  -") = true.
Proof. vm_compute. reflexivity. Qed.
(* uses field order from first object for tabular headers *)
Example fixture_230 : enc_test (JObj [((lit "items"), (JArr [(JObj [((lit "a"), (jnum (lit "1"))); ((lit "b"), (jnum (lit "2"))); ((lit "c"), (jnum (lit "3")))]); (JObj [((lit "c"), (jnum (lit "30"))); ((lit "b"), (jnum (lit "20"))); ((lit "a"), (jnum (lit "10")))])]))]) (EncOpts None None None None None) (lit "items[2]{a,b,c}:
  1,2,3
  10,20,30") = true.
Proof. vm_compute. reflexivity. Qed.
(* uses list format when one object has nested field *)
Example fixture_231 : enc_test (JObj [((lit "items"), (JArr [(JObj [((lit "id"), (jnum (lit "1"))); ((lit "data"), (JPrim (PStr (lit "string"))))]); (JObj [((lit "id"), (jnum (lit "2"))); ((lit "data"), (JObj [((lit "nested"), (JPrim (PBool true)))]))])]))]) (EncOpts None None None None None) (lit "items[2]:
  - id: 1
    data: string
  - id: 2
    data:
      nested: true") = true.
Proof. vm_compute. reflexivity. Qed.

(* encode/arrays-primitive.json *)
(* encodes string arrays inline *)
Example fixture_232 : enc_test (JObj [((lit "tags"), (JArr [(JPrim (PStr (lit "reading"))); (JPrim (PStr (lit "gaming")))]))]) (EncOpts None None None None None) (lit "tags[2]: reading,gaming") = true.
Proof. vm_compute. reflexivity. Qed.
(* encodes number arrays inline *)
Example fixture_233 : enc_test (JObj [((lit "nums"), (JArr [(jnum (lit "1")); (jnum (lit "2")); (jnum (lit "3"))]))]) (EncOpts None None None None None) (lit "nums[3]: 1,2,3") = true.
Proof. vm_compute. reflexivity. Qed.
(* encodes mixed primitive arrays inline *)
Example fixture_234 : enc_test (JObj [((lit "data"), (JArr [(JPrim (PStr (lit "x"))); (JPrim (PStr (lit "y"))); (JPrim (PBool true)); (jnum (lit "10"))]))]) (EncOpts None None None None None) (lit "data[4]: x,y,true,10") = true.
Proof. vm_compute. reflexivity. Qed.
(* encodes empty arrays *)
Example fixture_235 : enc_test (JObj [((lit "items"), (JArr []))]) (EncOpts None None None None None) (lit "items[0]:") = true.
Proof. vm_compute. reflexivity. Qed.
(* encodes empty string in single-item array *)
Example fixture_236 : enc_test (JObj [((lit "items"), (JArr [(JPrim (PStr (lit "")))]))]) (EncOpts None None None None None) (lit "items[1]: """"") = true.
Proof. vm_compute. reflexivity. Qed.
(* encodes empty string in multi-item array *)
Example fixture_237 : enc_test (JObj [((lit "items"), (JArr [(JPrim (PStr (lit "a"))); (JPrim (PStr (lit ""))); (JPrim (PStr (lit "b")))]))]) (EncOpts None None None None None) (lit "items[3]: a,"""",b") = true.
Proof. vm_compute. reflexivity. Qed.
(* encodes whitespace-only strings in arrays *)
Example fixture_238 : enc_test (JObj [((lit "items"), (JArr [(JPrim (PStr (lit " "))); (JPrim (PStr (lit "  ")))]))]) (EncOpts None None None None None) (lit "items[2]: "" "",""  """) = true.
Proof. vm_compute. reflexivity. Qed.
(* quotes array strings with comma *)
Example fixture_239 : enc_test (JObj [((lit "items"), (JArr [(JPrim (PStr (lit "a"))); (JPrim (PStr (lit "b,c"))); (JPrim (PStr (lit "d:e")))]))]) (EncOpts None None None None None) (lit "items[3]: a,""b,c"",""d:e""") = true.
Proof. vm_compute. reflexivity. Qed.
(* quotes strings that look like booleans in arrays *)
Example fixture_240 : enc_test (JObj [((lit "items"), (JArr [(JPrim (PStr (lit "x"))); (JPrim (PStr (lit "true"))); (JPrim (PStr (lit "42"))); (JPrim (PStr (lit "-3.14")))]))]) (EncOpts None None None None None) (lit "items[4]: x,""true"",""42"",""-3.14""") = true.
Proof. vm_compute. reflexivity. Qed.
(* quotes strings with structural meanings in arrays *)
Example fixture_241 : enc_test (JObj [((lit "items"), (JArr [(JPrim (PStr (lit "[5]"))); (JPrim (PStr (lit "- item"))); (JPrim (PStr (lit "{key}")))]))]) (EncOpts None None None None None) (lit "items[3]: ""[5]"",""- item"",""{key}""") = true.
Proof. vm_compute. reflexivity. Qed.

(* encode/arrays-tabular.json *)
(* encodes arrays of uniform objects in tabular format *)
Example fixture_242 : enc_test (JObj [((lit "items"), (JArr [(JObj [((lit "sku"), (JPrim (PStr (lit "A1")))); ((lit "qty"), (jnum (lit "2"))); ((lit "price"), (jnum (lit "9.99")))]); (JObj [((lit "sku"), (JPrim (PStr (lit "B2")))); ((lit "qty"), (jnum (lit "1"))); ((lit "price"), (jnum (lit "14.5")))])]))]) (EncOpts None None None None None) (lit "items[2]{sku,qty,price}:
  A1,2,9.99
  B2,1,14.5") = true.
Proof. vm_compute. reflexivity. Qed.
(* encodes null values in tabular format *)
Example fixture_243 : enc_test (JObj [((lit "items"), (JArr [(JObj [((lit "id"), (jnum (lit "1"))); ((lit "value"), (JPrim PNull))]); (JObj [((lit "id"), (jnum (lit "2"))); ((lit "value"), (JPrim (PStr (lit "test"))))])]))]) (EncOpts None None None None None) (lit "items[2]{id,value}:
  1,null
  2,test") = true.
Proof. vm_compute. reflexivity. Qed.
(* quotes strings containing delimiters in tabular rows *)
Example fixture_244 : enc_test (JObj [((lit "items"), (JArr [(JObj [((lit "sku"), (JPrim (PStr (lit "A,1")))); ((lit "desc"), (JPrim (PStr (lit "cool")))); ((lit "qty"), (jnum (lit "2")))]); (JObj [((lit "sku"), (JPrim (PStr (lit "B2")))); ((lit "desc"), (JPrim (PStr (lit "wip: test")))); ((lit "qty"), (jnum (lit "1")))])]))]) (EncOpts None None None None None) (lit "items[2]{sku,desc,qty}:
  ""A,1"",cool,2
  B2,""wip: test"",1") = true.
Proof. vm_compute. reflexivity. Qed.
(* quotes ambiguous strings in tabular rows *)
Example fixture_245 : enc_test (JObj [((lit "items"), (JArr [(JObj [((lit "id"), (jnum (lit "1"))); ((lit "status"), (JPrim (PStr (lit "true"))))]); (JObj [((lit "id"), (jnum (lit "2"))); ((lit "status"), (JPrim (PStr (lit "false"))))])]))]) (EncOpts None None None None None) (lit "items[2]{id,status}:
  1,""true""
  2,""false""") = true.
Proof. vm_compute. reflexivity. Qed.
(* encodes tabular arrays with keys needing quotes *)
Example fixture_246 : enc_test (JObj [((lit "items"), (JArr [(JObj [((lit "order:id"), (jnum (lit "1"))); ((lit "full name"), (JPrim (PStr (lit "Ada"))))]); (JObj [((lit "order:id"), (jnum (lit "2"))); ((lit "full name"), (JPrim (PStr (lit "Bob"))))])]))]) (EncOpts None None None None None) (lit "items[2]{""order:id"",""full name""}:
  1,Ada
  2,Bob") = true.
Proof. vm_compute. reflexivity. Qed.

(* encode/delimiters.json *)
(* encodes primitive arrays with tab delimiter *)
Example fixture_247 : enc_test (JObj [((lit "tags"), (JArr [(JPrim (PStr (lit "reading"))); (JPrim (PStr (lit "gaming"))); (JPrim (PStr (lit "coding")))]))]) (EncOpts None (Some 9) None None None) [116;97;103;115;91;51;9;93;58;32;114;101;97;100;105;110;103;9;103;97;109;105;110;103;9;99;111;100;105;110;103] = true.
Proof. vm_compute. reflexivity. Qed.
(* encodes primitive arrays with pipe delimiter *)
Example fixture_248 : enc_test (JObj [((lit "tags"), (JArr [(JPrim (PStr (lit "reading"))); (JPrim (PStr (lit "gaming"))); (JPrim (PStr (lit "coding")))]))]) (EncOpts None (Some 124) None None None) (lit "tags[3|]: reading|gaming|coding") = true.
Proof. vm_compute. reflexivity. Qed.
(* encodes primitive arrays with comma delimiter *)
Example fixture_249 : enc_test (JObj [((lit "tags"), (JArr [(JPrim (PStr (lit "reading"))); (JPrim (PStr (lit "gaming"))); (JPrim (PStr (lit "coding")))]))]) (EncOpts None (Some 44) None None None) (lit "tags[3]: reading,gaming,coding") = true.
Proof. vm_compute. reflexivity. Qed.
(* encodes tabular arrays with tab delimiter *)
Example fixture_250 : enc_test (JObj [((lit "items"), (JArr [(JObj [((lit "sku"), (JPrim (PStr (lit "A1")))); ((lit "qty"), (jnum (lit "2"))); ((lit "price"), (jnum (lit "9.99")))]); (JObj [((lit "sku"), (JPrim (PStr (lit "B2")))); ((lit "qty"), (jnum (lit "1"))); ((lit "price"), (jnum (lit "14.5")))])]))]) (EncOpts None (Some 9) None None None) [105;116;101;109;115;91;50;9;93;123;115;107;117;9;113;116;121;9;112;114;105;99;101;125;58;10;32;32;65;49;9;50;9;57;46;57;57;10;32;32;66;50;9;49;9;49;52;46;53] = true.
Proof. vm_compute. reflexivity. Qed.
(* encodes tabular arrays with pipe delimiter *)
Example fixture_251 : enc_test (JObj [((lit "items"), (JArr [(JObj [((lit "sku"), (JPrim (PStr (lit "A1")))); ((lit "qty"), (jnum (lit "2"))); ((lit "price"), (jnum (lit "9.99")))]); (JObj [((lit "sku"), (JPrim (PStr (lit "B2")))); ((lit "qty"), (jnum (lit "1"))); ((lit "price"), (jnum (lit "14.5")))])]))]) (EncOpts None (Some 124) None None None) (lit "items[2|]{sku|qty|price}:
  A1|2|9.99
  B2|1|14.5") = true.
Proof. vm_compute. reflexivity. Qed.
(* encodes nested arrays with tab delimiter *)
Example fixture_252 : enc_test (JObj [((lit "pairs"), (JArr [(JArr [(JPrim (PStr (lit "a"))); (JPrim (PStr (lit "b")))]); (JArr [(JPrim (PStr (lit "c"))); (JPrim (PStr (lit "d")))])]))]) (EncOpts None (Some 9) None None None) [112;97;105;114;115;91;50;9;93;58;10;32;32;45;32;91;50;9;93;58;32;97;9;98;10;32;32;45;32;91;50;9;93;58;32;99;9;100] = true.
Proof. vm_compute. reflexivity. Qed.
(* encodes nested arrays with pipe delimiter *)
Example fixture_253 : enc_test (JObj [((lit "pairs"), (JArr [(JArr [(JPrim (PStr (lit "a"))); (JPrim (PStr (lit "b")))]); (JArr [(JPrim (PStr (lit "c"))); (JPrim (PStr (lit "d")))])]))]) (EncOpts None (Some 124) None None None) (lit "pairs[2|]:
  - [2|]: a|b
  - [2|]: c|d") = true.
Proof. vm_compute. reflexivity. Qed.
(* encodes root-level array with tab delimiter *)
Example fixture_254 : enc_test (JArr [(JPrim (PStr (lit "x"))); (JPrim (PStr (lit "y"))); (JPrim (PStr (lit "z")))]) (EncOpts None (Some 9) None None None) [91;51;9;93;58;32;120;9;121;9;122] = true.
Proof. vm_compute. reflexivity. Qed.
(* encodes root-level array with pipe delimiter *)
Example fixture_255 : enc_test (JArr [(JPrim (PStr (lit "x"))); (JPrim (PStr (lit "y"))); (JPrim (PStr (lit "z")))]) (EncOpts None (Some 124) None None None) (lit "[3|]: x|y|z") = true.
Proof. vm_compute. reflexivity. Qed.
(* encodes root-level array of objects with tab delimiter *)
Example fixture_256 : enc_test (JArr [(JObj [((lit "id"), (jnum (lit "1")))]); (JObj [((lit "id"), (jnum (lit "2")))])]) (EncOpts None (Some 9) None None None) [91;50;9;93;123;105;100;125;58;10;32;32;49;10;32;32;50] = true.
Proof. vm_compute. reflexivity. Qed.
(* encodes root-level array of objects with pipe delimiter *)
Example fixture_257 : enc_test (JArr [(JObj [((lit "id"), (jnum (lit "1")))]); (JObj [((lit "id"), (jnum (lit "2")))])]) (EncOpts None (Some 124) None None None) (lit "[2|]{id}:
  1
  2") = true.
Proof. vm_compute. reflexivity. Qed.
(* quotes strings containing tab delimiter *)
Example fixture_258 : enc_test (JObj [((lit "items"), (JArr [(JPrim (PStr (lit "a"))); (JPrim (PStr [98;9;99])); (JPrim (PStr (lit "d")))]))]) (EncOpts None (Some 9) None None None) [105;116;101;109;115;91;51;9;93;58;32;97;9;34;98;92;116;99;34;9;100] = true.
Proof. vm_compute. reflexivity. Qed.
(* quotes strings containing pipe delimiter *)
Example fixture_259 : enc_test (JObj [((lit "items"), (JArr [(JPrim (PStr (lit "a"))); (JPrim (PStr (lit "b|c"))); (JPrim (PStr (lit "d")))]))]) (EncOpts None (Some 124) None None None) (lit "items[3|]: a|""b|c""|d") = true.
Proof. vm_compute. reflexivity. Qed.
(* does not quote commas with tab delimiter *)
Example fixture_260 : enc_test (JObj [((lit "items"), (JArr [(JPrim (PStr (lit "a,b"))); (JPrim (PStr (lit "c,d")))]))]) (EncOpts None (Some 9) None None None) [105;116;101;109;115;91;50;9;93;58;32;97;44;98;9;99;44;100] = true.
Proof. vm_compute. reflexivity. Qed.
(* does not quote commas with pipe delimiter *)
Example fixture_261 : enc_test (JObj [((lit "items"), (JArr [(JPrim (PStr (lit "a,b"))); (JPrim (PStr (lit "c,d")))]))]) (EncOpts None (Some 124) None None None) (lit "items[2|]: a,b|c,d") = true.
Proof. vm_compute. reflexivity. Qed.
(* quotes tabular values containing comma delimiter *)
Example fixture_262 : enc_test (JObj [((lit "items"), (JArr [(JObj [((lit "id"), (jnum (lit "1"))); ((lit "note"), (JPrim (PStr (lit "a,b"))))]); (JObj [((lit "id"), (jnum (lit "2"))); ((lit "note"), (JPrim (PStr (lit "c,d"))))])]))]) (EncOpts None (Some 44) None None None) (lit "items[2]{id,note}:
  1,""a,b""
  2,""c,d""") = true.
Proof. vm_compute. reflexivity. Qed.
(* does not quote commas in tabular values with tab delimiter *)
Example fixture_263 : enc_test (JObj [((lit "items"), (JArr [(JObj [((lit "id"), (jnum (lit "1"))); ((lit "note"), (JPrim (PStr (lit "a,b"))))]); (JObj [((lit "id"), (jnum (lit "2"))); ((lit "note"), (JPrim (PStr (lit "c,d"))))])]))]) (EncOpts None (Some 9) None None None) [105;116;101;109;115;91;50;9;93;123;105;100;9;110;111;116;101;125;58;10;32;32;49;9;97;44;98;10;32;32;50;9;99;44;100] = true.
Proof. vm_compute. reflexivity. Qed.
(* does not quote commas in object values with pipe delimiter *)
Example fixture_264 : enc_test (JObj [((lit "note"), (JPrim (PStr (lit "a,b"))))]) (EncOpts None (Some 124) None None None) (lit "note: a,b") = true.
Proof. vm_compute. reflexivity. Qed.
(* does not quote commas in object values with tab delimiter *)
Example fixture_265 : enc_test (JObj [((lit "note"), (JPrim (PStr (lit "a,b"))))]) (EncOpts None (Some 9) None None None) (lit "note: a,b") = true.
Proof. vm_compute. reflexivity. Qed.
(* quotes nested array values containing pipe delimiter *)
Example fixture_266 : enc_test (JObj [((lit "pairs"), (JArr [(JArr [(JPrim (PStr (lit "a"))); (JPrim (PStr (lit "b|c")))])]))]) (EncOpts None (Some 124) None None None) (lit "pairs[1|]:
  - [2|]: a|""b|c""") = true.
Proof. vm_compute. reflexivity. Qed.
(* quotes nested array values containing tab delimiter *)
Example fixture_267 : enc_test (JObj [((lit "pairs"), (JArr [(JArr [(JPrim (PStr (lit "a"))); (JPrim (PStr [98;9;99]))])]))]) (EncOpts None (Some 9) None None None) [112;97;105;114;115;91;49;9;93;58;10;32;32;45;32;91;50;9;93;58;32;97;9;34;98;92;116;99;34] = true.
Proof. vm_compute. reflexivity. Qed.
(* preserves ambiguity quoting regardless of delimiter *)
Example fixture_268 : enc_test (JObj [((lit "items"), (JArr [(JPrim (PStr (lit "true"))); (JPrim (PStr (lit "42"))); (JPrim (PStr (lit "-3.14")))]))]) (EncOpts None (Some 124) None None None) (lit "items[3|]: ""true""|""42""|""-3.14""") = true.
Proof. vm_compute. reflexivity. Qed.

(* encode/key-folding.json *)
(* encodes folded chain to primitive (safe mode) *)
Example fixture_269 : enc_test (JObj [((lit "a"), (JObj [((lit "b"), (JObj [((lit "c"), (jnum (lit "1")))]))]))]) (EncOpts None None (Some KFSafe) None None) (lit "a.b.c: 1") = true.
Proof. vm_compute. reflexivity. Qed.
(* encodes folded chain with inline array *)
Example fixture_270 : enc_test (JObj [((lit "data"), (JObj [((lit "meta"), (JObj [((lit "items"), (JArr [(JPrim (PStr (lit "x"))); (JPrim (PStr (lit "y")))]))]))]))]) (EncOpts None None (Some KFSafe) None None) (lit "data.meta.items[2]: x,y") = true.
Proof. vm_compute. reflexivity. Qed.
(* encodes folded chain with tabular array *)
Example fixture_271 : enc_test (JObj [((lit "a"), (JObj [((lit "b"), (JObj [((lit "items"), (JArr [(JObj [((lit "id"), (jnum (lit "1"))); ((lit "name"), (JPrim (PStr (lit "A"))))]); (JObj [((lit "id"), (jnum (lit "2"))); ((lit "name"), (JPrim (PStr (lit "B"))))])]))]))]))]) (EncOpts None None (Some KFSafe) None None) (lit "a.b.items[2]{id,name}:
  1,A
  2,B") = true.
Proof. vm_compute. reflexivity. Qed.
(* skips folding when segment requires quotes (safe mode) *)
Example fixture_272 : enc_test (JObj [((lit "data"), (JObj [((lit "full-name"), (JObj [((lit "x"), (jnum (lit "1")))]))]))]) (EncOpts None None (Some KFSafe) None None) (lit "data:
  ""full-name"":
    x: 1") = true.
Proof. vm_compute. reflexivity. Qed.
(* skips folding on sibling literal-key collision (safe mode) *)
Example fixture_273 : enc_test (JObj [((lit "data"), (JObj [((lit "meta"), (JObj [((lit "items"), (JArr [(jnum (lit "1")); (jnum (lit "2"))]))]))])); ((lit "data.meta.items"), (JPrim (PStr (lit "literal"))))]) (EncOpts None None (Some KFSafe) None None) (lit "data:
  meta:
    items[2]: 1,2
data.meta.items: literal") = true.
Proof. vm_compute. reflexivity. Qed.
(* encodes partial folding with flattenDepth=2 *)
Example fixture_274 : enc_test (JObj [((lit "a"), (JObj [((lit "b"), (JObj [((lit "c"), (JObj [((lit "d"), (jnum (lit "1")))]))]))]))]) (EncOpts None None (Some KFSafe) (Some 2) None) (lit "a.b:
  c:
    d: 1") = true.
Proof. vm_compute. reflexivity. Qed.
(* encodes full chain with flattenDepth=Infinity (default) *)
Example fixture_275 : enc_test (JObj [((lit "a"), (JObj [((lit "b"), (JObj [((lit "c"), (JObj [((lit "d"), (jnum (lit "1")))]))]))]))]) (EncOpts None None (Some KFSafe) None None) (lit "a.b.c.d: 1") = true.
Proof. vm_compute. reflexivity. Qed.
(* encodes standard nesting with flattenDepth=0 (no folding) *)
Example fixture_276 : enc_test (JObj [((lit "a"), (JObj [((lit "b"), (JObj [((lit "c"), (jnum (lit "1")))]))]))]) (EncOpts None None (Some KFSafe) (Some 0) None) (lit "a:
  b:
    c: 1") = true.
Proof. vm_compute. reflexivity. Qed.
(* encodes standard nesting with flattenDepth=1 (no practical effect) *)
Example fixture_277 : enc_test (JObj [((lit "a"), (JObj [((lit "b"), (JObj [((lit "c"), (jnum (lit "1")))]))]))]) (EncOpts None None (Some KFSafe) (Some 1) None) (lit "a:
  b:
    c: 1") = true.
Proof. vm_compute. reflexivity. Qed.
(* encodes standard nesting with keyFolding=off (baseline) *)
Example fixture_278 : enc_test (JObj [((lit "a"), (JObj [((lit "b"), (JObj [((lit "c"), (jnum (lit "1")))]))]))]) (EncOpts None None (Some KFOff) None None) (lit "a:
  b:
    c: 1") = true.
Proof. vm_compute. reflexivity. Qed.
(* encodes folded chain ending with empty object *)
Example fixture_279 : enc_test (JObj [((lit "a"), (JObj [((lit "b"), (JObj [((lit "c"), (JObj []))]))]))]) (EncOpts None None (Some KFSafe) None None) (lit "a.b.c:") = true.
Proof. vm_compute. reflexivity. Qed.
(* stops folding at array boundary (not single-key object) *)
Example fixture_280 : enc_test (JObj [((lit "a"), (JObj [((lit "b"), (JArr [(jnum (lit "1")); (jnum (lit "2"))]))]))]) (EncOpts None None (Some KFSafe) None None) (lit "a.b[2]: 1,2") = true.
Proof. vm_compute. reflexivity. Qed.
(* encodes folded chains preserving sibling field order *)
Example fixture_281 : enc_test (JObj [((lit "first"), (JObj [((lit "second"), (JObj [((lit "third"), (jnum (lit "1")))]))])); ((lit "simple"), (jnum (lit "2"))); ((lit "short"), (JObj [((lit "path"), (jnum (lit "3")))]))]) (EncOpts None None (Some KFSafe) None None) (lit "first.second.third: 1
simple: 2
short.path: 3") = true.
Proof. vm_compute. reflexivity. Qed.

(* encode/objects.json *)
(* preserves key order in objects *)
Example fixture_282 : enc_test (JObj [((lit "id"), (jnum (lit "123"))); ((lit "name"), (JPrim (PStr (lit "Ada")))); ((lit "active"), (JPrim (PBool true)))]) (EncOpts None None None None None) (lit "id: 123
name: Ada
active: true") = true.
Proof. vm_compute. reflexivity. Qed.
(* encodes null values in objects *)
Example fixture_283 : enc_test (JObj [((lit "id"), (jnum (lit "123"))); ((lit "value"), (JPrim PNull))]) (EncOpts None None None None None) (lit "id: 123
value: null") = true.
Proof. vm_compute. reflexivity. Qed.
(* encodes empty objects as empty string *)
Example fixture_284 : enc_test (JObj []) (EncOpts None None None None None) (lit "") = true.
Proof. vm_compute. reflexivity. Qed.
(* quotes string value with colon *)
Example fixture_285 : enc_test (JObj [((lit "note"), (JPrim (PStr (lit "a:b"))))]) (EncOpts None None None None None) (lit "note: ""a:b""") = true.
Proof. vm_compute. reflexivity. Qed.
(* quotes string value with comma *)
Example fixture_286 : enc_test (JObj [((lit "note"), (JPrim (PStr (lit "a,b"))))]) (EncOpts None None None None None) (lit "note: ""a,b""") = true.
Proof. vm_compute. reflexivity. Qed.
(* quotes string value with newline *)
Example fixture_287 : enc_test (JObj [((lit "text"), (JPrim (PStr (lit "line1
line2"))))]) (EncOpts None None None None None) (lit "text: ""line1\nline2""") = true.
Proof. vm_compute. reflexivity. Qed.
(* quotes string value with embedded quotes *)
Example fixture_288 : enc_test (JObj [((lit "text"), (JPrim (PStr (lit "say ""hello"""))))]) (EncOpts None None None None None) (lit "text: ""say \""hello\""""") = true.
Proof. vm_compute. reflexivity. Qed.
(* quotes string value with leading space *)
Example fixture_289 : enc_test (JObj [((lit "text"), (JPrim (PStr (lit " padded "))))]) (EncOpts None None None None None) (lit "text: "" padded """) = true.
Proof. vm_compute. reflexivity. Qed.
(* quotes string value with only spaces *)
Example fixture_290 : enc_test (JObj [((lit "text"), (JPrim (PStr (lit "  "))))]) (EncOpts None None None None None) (lit "text: ""  """) = true.
Proof. vm_compute. reflexivity. Qed.
(* quotes string value that looks like true *)
Example fixture_291 : enc_test (JObj [((lit "v"), (JPrim (PStr (lit "true"))))]) (EncOpts None None None None None) (lit "v: ""true""") = true.
Proof. vm_compute. reflexivity. Qed.
(* quotes string value that looks like number *)
Example fixture_292 : enc_test (JObj [((lit "v"), (JPrim (PStr (lit "42"))))]) (EncOpts None None None None None) (lit "v: ""42""") = true.
Proof. vm_compute. reflexivity. Qed.
(* quotes string value that looks like negative decimal *)
Example fixture_293 : enc_test (JObj [((lit "v"), (JPrim (PStr (lit "-7.5"))))]) (EncOpts None None None None None) (lit "v: ""-7.5""") = true.
Proof. vm_compute. reflexivity. Qed.
(* quotes key with colon *)
Example fixture_294 : enc_test (JObj [((lit "order:id"), (jnum (lit "7")))]) (EncOpts None None None None None) (lit """order:id"": 7") = true.
Proof. vm_compute. reflexivity. Qed.
(* quotes key with brackets *)
Example fixture_295 : enc_test (JObj [((lit "[index]"), (jnum (lit "5")))]) (EncOpts None None None None None) (lit """[index]"": 5") = true.
Proof. vm_compute. reflexivity. Qed.
(* quotes key with braces *)
Example fixture_296 : enc_test (JObj [((lit "{key}"), (jnum (lit "5")))]) (EncOpts None None None None None) (lit """{key}"": 5") = true.
Proof. vm_compute. reflexivity. Qed.
(* quotes key with comma *)
Example fixture_297 : enc_test (JObj [((lit "a,b"), (jnum (lit "1")))]) (EncOpts None None None None None) (lit """a,b"": 1") = true.
Proof. vm_compute. reflexivity. Qed.
(* quotes key with spaces *)
Example fixture_298 : enc_test (JObj [((lit "full name"), (JPrim (PStr (lit "Ada"))))]) (EncOpts None None None None None) (lit """full name"": Ada") = true.
Proof. vm_compute. reflexivity. Qed.
(* quotes key with leading hyphen *)
Example fixture_299 : enc_test (JObj [((lit "-lead"), (jnum (lit "1")))]) (EncOpts None None None None None) (lit """-lead"": 1") = true.
Proof. vm_compute. reflexivity. Qed.
(* quotes key with leading and trailing spaces *)
Example fixture_300 : enc_test (JObj [((lit " a "), (jnum (lit "1")))]) (EncOpts None None None None None) (lit """ a "": 1") = true.
Proof. vm_compute. reflexivity. Qed.
(* quotes numeric key *)
Example fixture_301 : enc_test (JObj [((lit "123"), (JPrim (PStr (lit "x"))))]) (EncOpts None None None None None) (lit """123"": x") = true.
Proof. vm_compute. reflexivity. Qed.
(* quotes empty string key *)
Example fixture_302 : enc_test (JObj [((lit ""), (jnum (lit "1")))]) (EncOpts None None None None None) (lit """"": 1") = true.
Proof. vm_compute. reflexivity. Qed.
(* escapes newline in key *)
Example fixture_303 : enc_test (JObj [((lit "line
break"), (jnum (lit "1")))]) (EncOpts None None None None None) (lit """line\nbreak"": 1") = true.
Proof. vm_compute. reflexivity. Qed.
(* escapes tab in key *)
Example fixture_304 : enc_test (JObj [([116;97;98;9;104;101;114;101], (jnum (lit "2")))]) (EncOpts None None None None None) (lit """tab\there"": 2") = true.
Proof. vm_compute. reflexivity. Qed.
(* escapes quotes in key *)
Example fixture_305 : enc_test (JObj [((lit "he said ""hi"""), (jnum (lit "1")))]) (EncOpts None None None None None) (lit """he said \""hi\"""": 1") = true.
Proof. vm_compute. reflexivity. Qed.
(* encodes deeply nested objects *)
Example fixture_306 : enc_test (JObj [((lit "a"), (JObj [((lit "b"), (JObj [((lit "c"), (JPrim (PStr (lit "deep"))))]))]))]) (EncOpts None None None None None) (lit "a:
  b:
    c: deep") = true.
Proof. vm_compute. reflexivity. Qed.
(* encodes empty nested object *)
Example fixture_307 : enc_test (JObj [((lit "user"), (JObj []))]) (EncOpts None None None None None) (lit "user:") = true.
Proof. vm_compute. reflexivity. Qed.

(* encode/primitives.json *)
(* encodes safe strings without quotes *)
Example fixture_308 : enc_test (JPrim (PStr (lit "hello"))) (EncOpts None None None None None) (lit "hello") = true.
Proof. vm_compute. reflexivity. Qed.
(* encodes safe string with underscore and numbers *)
Example fixture_309 : enc_test (JPrim (PStr (lit "Ada_99"))) (EncOpts None None None None None) (lit "Ada_99") = true.
Proof. vm_compute. reflexivity. Qed.
(* quotes empty string *)
Example fixture_310 : enc_test (JPrim (PStr (lit ""))) (EncOpts None None None None None) (lit """""") = true.
Proof. vm_compute. reflexivity. Qed.
(* quotes string that looks like true *)
Example fixture_311 : enc_test (JPrim (PStr (lit "true"))) (EncOpts None None None None None) (lit """true""") = true.
Proof. vm_compute. reflexivity. Qed.
(* quotes string that looks like false *)
Example fixture_312 : enc_test (JPrim (PStr (lit "false"))) (EncOpts None None None None None) (lit """false""") = true.
Proof. vm_compute. reflexivity. Qed.
(* quotes string that looks like null *)
Example fixture_313 : enc_test (JPrim (PStr (lit "null"))) (EncOpts None None None None None) (lit """null""") = true.
Proof. vm_compute. reflexivity. Qed.
(* quotes string that looks like integer *)
Example fixture_314 : enc_test (JPrim (PStr (lit "42"))) (EncOpts None None None None None) (lit """42""") = true.
Proof. vm_compute. reflexivity. Qed.
(* quotes string that looks like negative decimal *)
Example fixture_315 : enc_test (JPrim (PStr (lit "-3.14"))) (EncOpts None None None None None) (lit """-3.14""") = true.
Proof. vm_compute. reflexivity. Qed.
(* quotes string that looks like scientific notation *)
Example fixture_316 : enc_test (JPrim (PStr (lit "1e-6"))) (EncOpts None None None None None) (lit """1e-6""") = true.
Proof. vm_compute. reflexivity. Qed.
(* quotes string with leading zero *)
Example fixture_317 : enc_test (JPrim (PStr (lit "05"))) (EncOpts None None None None None) (lit """05""") = true.
Proof. vm_compute. reflexivity. Qed.
(* escapes newline in string *)
Example fixture_318 : enc_test (JPrim (PStr (lit "line1
line2"))) (EncOpts None None None None None) (lit """line1\nline2""") = true.
Proof. vm_compute. reflexivity. Qed.
(* escapes tab in string *)
Example fixture_319 : enc_test (JPrim (PStr [116;97;98;9;104;101;114;101])) (EncOpts None None None None None) (lit """tab\there""") = true.
Proof. vm_compute. reflexivity. Qed.
(* escapes carriage return in string *)
Example fixture_320 : enc_test (JPrim (PStr [114;101;116;117;114;110;13;99;97;114;114;105;97;103;101])) (EncOpts None None None None None) (lit """return\rcarriage""") = true.
Proof. vm_compute. reflexivity. Qed.
(* escapes backslash in string *)
Example fixture_321 : enc_test (JPrim (PStr (lit "C:\Users\path"))) (EncOpts None None None None None) (lit """C:\\Users\\path""") = true.
Proof. vm_compute. reflexivity. Qed.
(* quotes string with array-like syntax *)
Example fixture_322 : enc_test (JPrim (PStr (lit "[3]: x,y"))) (EncOpts None None None None None) (lit """[3]: x,y""") = true.
Proof. vm_compute. reflexivity. Qed.
(* quotes string starting with hyphen-space *)
Example fixture_323 : enc_test (JPrim (PStr (lit "- item"))) (EncOpts None None None None None) (lit """- item""") = true.
Proof. vm_compute. reflexivity. Qed.
(* quotes single hyphen as object value *)
Example fixture_324 : enc_test (JObj [((lit "marker"), (JPrim (PStr (lit "-"))))]) (EncOpts None None None None None) (lit "marker: ""-""") = true.
Proof. vm_compute. reflexivity. Qed.
(* quotes string starting with hyphen as object value *)
Example fixture_325 : enc_test (JObj [((lit "note"), (JPrim (PStr (lit "- item"))))]) (EncOpts None None None None None) (lit "note: ""- item""") = true.
Proof. vm_compute. reflexivity. Qed.
(* quotes single hyphen in array *)
Example fixture_326 : enc_test (JObj [((lit "items"), (JArr [(JPrim (PStr (lit "-")))]))]) (EncOpts None None None None None) (lit "items[1]: ""-""") = true.
Proof. vm_compute. reflexivity. Qed.
(* quotes leading-hyphen string in array *)
Example fixture_327 : enc_test (JObj [((lit "tags"), (JArr [(JPrim (PStr (lit "a"))); (JPrim (PStr (lit "- item"))); (JPrim (PStr (lit "b")))]))]) (EncOpts None None None None None) (lit "tags[3]: a,""- item"",b") = true.
Proof. vm_compute. reflexivity. Qed.
(* quotes string with bracket notation *)
Example fixture_328 : enc_test (JPrim (PStr (lit "[test]"))) (EncOpts None None None None None) (lit """[test]""") = true.
Proof. vm_compute. reflexivity. Qed.
(* quotes string with brace notation *)
Example fixture_329 : enc_test (JPrim (PStr (lit "{key}"))) (EncOpts None None None None None) (lit """{key}""") = true.
Proof. vm_compute. reflexivity. Qed.
(* encodes Unicode string without quotes *)
Example fixture_330 : enc_test (JPrim (PStr [99;97;102;233])) (EncOpts None None None None None) [99;97;102;233] = true.
Proof. vm_compute. reflexivity. Qed.
(* encodes Chinese characters without quotes *)
Example fixture_331 : enc_test (JPrim (PStr [20320;22909])) (EncOpts None None None None None) [20320;22909] = true.
Proof. vm_compute. reflexivity. Qed.
(* encodes emoji without quotes *)
Example fixture_332 : enc_test (JPrim (PStr [128640])) (EncOpts None None None None None) [128640] = true.
Proof. vm_compute. reflexivity. Qed.
(* encodes string with emoji and spaces *)
Example fixture_333 : enc_test (JPrim (PStr [104;101;108;108;111;32;128075;32;119;111;114;108;100])) (EncOpts None None None None None) [104;101;108;108;111;32;128075;32;119;111;114;108;100] = true.
Proof. vm_compute. reflexivity. Qed.
(* encodes positive integer *)
Example fixture_334 : enc_test (jnum (lit "42")) (EncOpts None None None None None) (lit "42") = true.
Proof. vm_compute. reflexivity. Qed.
(* encodes decimal number *)
Example fixture_335 : enc_test (jnum (lit "3.14")) (EncOpts None None None None None) (lit "3.14") = true.
Proof. vm_compute. reflexivity. Qed.
(* encodes negative integer *)
Example fixture_336 : enc_test (jnum (lit "-7")) (EncOpts None None None None None) (lit "-7") = true.
Proof. vm_compute. reflexivity. Qed.
(* encodes zero *)
Example fixture_337 : enc_test (jnum (lit "0")) (EncOpts None None None None None) (lit "0") = true.
Proof. vm_compute. reflexivity. Qed.
(* encodes negative zero as zero *)
Example fixture_338 : enc_test (jnum (lit "-0")) (EncOpts None None None None None) (lit "0") = true.
Proof. vm_compute. reflexivity. Qed.
(* encodes scientific notation as decimal *)
Example fixture_339 : enc_test (jnum (lit "1000000")) (EncOpts None None None None None) (lit "1000000") = true.
Proof. vm_compute. reflexivity. Qed.
(* encodes small decimal from scientific notation *)
Example fixture_340 : enc_test (jnum (lit "0.000001")) (EncOpts None None None None None) (lit "0.000001") = true.
Proof. vm_compute. reflexivity. Qed.
(* encodes large number *)
Example fixture_341 : enc_test (jnum (lit "100000000000000000000")) (EncOpts None None None None None) (lit "100000000000000000000") = true.
Proof. vm_compute. reflexivity. Qed.
(* encodes MAX_SAFE_INTEGER *)
Example fixture_342 : enc_test (jnum (lit "9007199254740991")) (EncOpts None None None None None) (lit "9007199254740991") = true.
Proof. vm_compute. reflexivity. Qed.
(* encodes repeating decimal with full precision *)
Example fixture_343 : enc_test (jnum (lit "0.3333333333333333")) (EncOpts None None None None None) (lit "0.3333333333333333") = true.
Proof. vm_compute. reflexivity. Qed.
(* encodes true *)
Example fixture_344 : enc_test (JPrim (PBool true)) (EncOpts None None None None None) (lit "true") = true.
Proof. vm_compute. reflexivity. Qed.
(* encodes false *)
Example fixture_345 : enc_test (JPrim (PBool false)) (EncOpts None None None None None) (lit "false") = true.
Proof. vm_compute. reflexivity. Qed.
(* encodes null *)
Example fixture_346 : enc_test (JPrim PNull) (EncOpts None None None None None) (lit "null") = true.
Proof. vm_compute. reflexivity. Qed.

(* encode/whitespace.json *)
(* produces no trailing newline at end of output *)
Example fixture_347 : enc_test (JObj [((lit "id"), (jnum (lit "123")))]) (EncOpts None None None None None) (lit "id: 123") = true.
Proof. vm_compute. reflexivity. Qed.
(* maintains proper indentation for nested structures *)
Example fixture_348 : enc_test (JObj [((lit "user"), (JObj [((lit "id"), (jnum (lit "123"))); ((lit "name"), (JPrim (PStr (lit "Ada"))))])); ((lit "items"), (JArr [(JPrim (PStr (lit "a"))); (JPrim (PStr (lit "b")))]))]) (EncOpts None None None None None) (lit "user:
  id: 123
  name: Ada
items[2]: a,b") = true.
Proof. vm_compute. reflexivity. Qed.
(* respects custom indent size option *)
Example fixture_349 : enc_test (JObj [((lit "user"), (JObj [((lit "name"), (JPrim (PStr (lit "Ada")))); ((lit "role"), (JPrim (PStr (lit "admin"))))]))]) (EncOpts (Some 4%nat) None None None None) (lit "user:
    name: Ada
    role: admin") = true.
Proof. vm_compute. reflexivity. Qed.
