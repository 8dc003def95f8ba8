(** What a message has to tell, and in which order. *)
From Verif Require Import Chars Floats Json Spec SpecText.

(** A number in decimal notation without leading zeros. *)
Definition written (n : N) (s : str) : Prop :=
  digits s /\ digits_value s = n /\ forall r, s = cZERO :: r -> r = [].
Definition halted (s : str) : Prop := forall c r, s = c :: r -> ~ digit c.

Inductive fact := Says (words : str) | Number (n : N).
(** The words and the numbers stand in the text in this order, with anything between them. *)
Inductive tells : list fact -> str -> Prop :=
| te_end s : tells [] s
| te_words w fs a b : tells fs b -> tells (Says w :: fs) (a ++ w ++ b)
| te_number n ds fs a b : written n ds -> halted (rev a) -> halted b -> tells fs b ->
    tells (Number n :: fs) (a ++ ds ++ b).

Definition line_number (n : nat) : fact := Number (N.of_nat n).
Definition thing (k : nkind) : str := match k with KPrim => lit "primitive" | KArr => lit "array" | KObj => lit "object" end.
(** The facts of a failure: the line, what was declared, what was found. *)
Definition facts (e : err) : list fact :=
  match e with
  | EUnterminatedString => [Says (lit "Unterminated string")]
  | ECharsAfterQuote => [Says (lit "after closing quote")]
  | EInvalidEscape (Some c) => [Says (lit "Invalid escape"); Says [cBSLASH; c]]
  | EInvalidEscape None => [Says (lit "Invalid escape"); Says (lit "at end of string")]
  | EMissingColon => [Says (lit "Missing colon")]
  | EUnterminatedKey => [Says (lit "Unterminated quoted key")]
  | ELengthCap n => [Says (lit "length"); Number n; Says (lit "exceeds maximum"); Number 100000000]
  | ETabIndent n => [line_number n; Says (lit "Tabs"); Says (lit "strict mode")]
  | EIndentZero n k => [line_number n; Says (lit "indent size is "); Number 0; Says (lit "found"); Number (N.of_nat k)]
  | EIndentMultiple n s k => [line_number n; Says (lit "multiple of"); Number (N.of_nat s); Says (lit "found"); Number (N.of_nat k)]
  | ECount CInline x a => [Says (lit "Expected"); Number x; Says (lit "inline array items"); Says (lit "got"); Number a]
  | ECount CRowValues x a => [Says (lit "Expected"); Number x; Says (lit "row values"); Says (lit "got"); Number a]
  | ECount CRows x a => [Says (lit "Expected"); Number x; Says (lit "tabular rows"); Says (lit "got"); Number a]
  | ECount CItems x a => [Says (lit "Expected"); Number x; Says (lit "list array items"); Says (lit "got"); Number a]
  | EExtraItems n => [Says (lit "Expected"); Number n; Says (lit "list array items"); Says (lit "found more")]
  | EExtraRows n => [Says (lit "Expected"); Number n; Says (lit "tabular rows"); Says (lit "found more")]
  | EBlankInArray CRows n => [line_number n; Says (lit "Blank lines inside"); Says (lit "tabular array"); Says (lit "strict mode")]
  | EBlankInArray _ n => [line_number n; Says (lit "Blank lines inside"); Says (lit "list array"); Says (lit "strict mode")]
  | EExpandDepth => [Says (lit "exceeded maximum depth"); Number 256]
  | EExpandConflict (CSegment key found) =>
      [Says (lit "conflict at segment"); Says key; Says (lit "expected object"); Says (lit "found"); Says (thing found)]
  | EExpandConflict (CKey key l r) =>
      [Says (lit "conflict at key"); Says key; Says (lit "merge"); Says (thing l); Says (lit "with"); Says (thing r)]
  | EUnexpectedEvent OEndObject => [Says (lit "Unexpected"); Says (lit "endObject"); Says (lit "empty stack")]
  | EUnexpectedEvent OEndArray => [Says (lit "Unexpected"); Says (lit "endArray"); Says (lit "empty stack")]
  | EUnexpectedEvent _ => [Says (lit "Unexpected"); Says (lit "Key"); Says (lit "outside of object")]
  | EMismatchedEnd OEndObject => [Says (lit "Mismatched end"); Says (lit "expected"); Says (lit "Object"); Says (lit "found"); Says (lit "Array")]
  | EMismatchedEnd _ => [Says (lit "Mismatched end"); Says (lit "expected"); Says (lit "Array"); Says (lit "found"); Says (lit "Object")]
  | ENoKey OEndObject => [Says (lit "endObject"); Says (lit "without preceding key")]
  | ENoKey OEndArray => [Says (lit "endArray"); Says (lit "without preceding key")]
  | ENoKey _ => [Says (lit "Primitive"); Says (lit "without preceding key")]
  | EIncomplete => [Says (lit "Incomplete event stream")]
  | ENoRoot => [Says (lit "No root value")]
  | EJsonStream OEndObject => [Says (lit "Mismatched endObject")]
  | EJsonStream OEndArray => [Says (lit "Mismatched endArray")]
  | EJsonStream OKey => [Says (lit "Key"); Says (lit "outside of object")]
  | EJsonStream OPrim => [Says (lit "Primitive"); Says (lit "without preceding key")]
  | EJsonStream OEnd => [Says (lit "Incomplete event stream"); Says (lit "unclosed")]
  | _ => []
  end.
