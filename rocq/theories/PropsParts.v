(** C70: the text of a value is composed from the texts of its parts. *)
From Verif Require Import Chars Floats Json Spec Normalize EncodeApi SpecText SpecParts PartsProof.

Local Open Scope nat_scope.

Section Options.
Variable indent : option nat.
Variable delimiter : option char.
Variable mode : option key_folding_mode.
Variable depth : option N.
Let spaces := unwrap_or indent 2.
Let dl := unwrap_or delimiter cCOMMA.
Notation lines v := (encode_lines 0 v (Some (EncOpts indent delimiter mode depth None))).

(** Objects: the lines of the members one after the other. *)
Theorem C70_members :
  forall (a b : list (str * json)) (la lb : list str), mode <> Some KFSafe ->
    lines (JObj a) = Ok la -> lines (JObj b) = Ok lb -> lines (JObj (a ++ b)) = Ok (la ++ lb).
Proof. intros. now apply parts_members. Qed.

(** One member: the key, then the text of the value; of an object indented on the next lines, of
    an array and of a primitive on the same line. *)
Theorem C70_member :
  forall (k kt : str) (v : json) (ls : list str), mode <> Some KFSafe -> key_text k kt ->
    lines v = Ok ls ->
    lines (JObj [(k, v)]) = Ok
      (match v, ls with
       | JObj _, _ => (kt ++ [cCOLON]) :: pushed spaces ls
       | JArr _, first :: rest => (kt ++ first) :: rest
       | JPrim _, first :: rest => (kt ++ cCOLON :: cSPACE :: first) :: rest
       | _, [] => []
       end).
Proof.
  intros k kt v ls Hm K H. destruct v as [p|l|l].
  - destruct (parts_prim indent delimiter mode depth Hm k kt p ls K H) as (t & -> & X). exact X.
  - destruct (parts_array indent delimiter mode depth Hm k kt l ls K H) as (f & r & -> & X). exact X.
  - exact (parts_nested indent delimiter mode depth Hm k kt l ls K H).
Qed.

(** Arrays written as lists: the header and the block of each item. *)
Theorem C70_items :
  forall (l : list json) (ls : list str), mode <> Some KFSafe ->
    (forall ps, l <> map JPrim ps) -> ~ tabled l ->
    (lines (JArr l) = Ok ls <->
     exists h bs, header dl None (length l) None h /\
       Forall2 (block (fun v ls => lines v = Ok ls) spaces dl) l bs /\ ls = h :: concat bs).
Proof. intros l ls Hm. exact (parts_items indent delimiter mode depth Hm l ls). Qed.
Theorem C70_one_block :
  forall (v : json), mode <> Some KFSafe ->
    exists b, block (fun v ls => lines v = Ok ls) spaces dl v b /\
      forall b', block (fun v ls => lines v = Ok ls) spaces dl v b' -> b' = b.
Proof.
  intros v Hm. destruct (item_block indent delimiter mode depth Hm v) as (a & _ & B). eexists. split; [exact B|].
  intros b' B'. exact (block_unique indent delimiter mode depth v _ _ B' B).
Qed.

(** Tables with the same fields: the rows one after the other. *)
Theorem C70_rows :
  forall (a b : list json) (fields : list str) ra rb (ha hb h : str) (la lb : list str), mode <> Some KFSafe ->
    table a fields ra -> table b fields rb ->
    lines (JArr a) = Ok (ha :: la) -> lines (JArr b) = Ok (hb :: lb) ->
    header dl None (length (a ++ b)) (Some fields) h ->
    lines (JArr (a ++ b)) = Ok (h :: la ++ lb).
Proof. intros a b fields ra rb ha hb h la lb Hm. intros. eapply parts_rows; eauto. Qed.
End Options.
Print Assumptions C70_members.
Print Assumptions C70_member.
Print Assumptions C70_items.
Print Assumptions C70_one_block.
Print Assumptions C70_rows.

(** With folded keys the text of a member depends on the other members. *)
Theorem C70_folded_members_refuted :
  ~ (forall (a b : list (str * json)) (la lb : list str) (o : option encode_options),
       encode_lines 0 (JObj a) o = Ok la -> encode_lines 0 (JObj b) o = Ok lb ->
       encode_lines 0 (JObj (a ++ b)) o = Ok (la ++ lb)).
Proof.
  intros H. specialize (H [(lit "a", JObj [(lit "b", JPrim PNull)])] [(lit "a.b", JPrim PNull)]
    [lit "a.b: null"] [lit "a.b: null"] (Some (EncOpts None None (Some KFSafe) None None)) ltac:(vm_compute; reflexivity) ltac:(vm_compute; reflexivity)).
  vm_compute in H. discriminate.
Qed.
Print Assumptions C70_folded_members_refuted.

(** A list of a primitive, an object whose second member is an object, and an array of equal objects. *)
Definition parts_case : list json :=
  [JPrim (PStr (lit "x")); JObj [(lit "p", JPrim PNull); (lit "q", JObj [(lit "r", JPrim PNull)])];
   JArr [JObj [(lit "s", JPrim PNull)]]].
Example C70_case :
  (forall ps, parts_case <> map JPrim ps) /\ ~ tabled parts_case /\ tabled [JObj [(lit "s", JPrim PNull)]] /\
  encode_lines 0 (JObj [(lit "k", JArr parts_case)]) None =
    Ok [lit "k[3]:"; lit "  - x"; lit "  - p: null"; lit "    q:"; lit "      r: null"; lit "  - [1]:"; lit "    - s: null"] /\
  encode_lines 0 (nth 1 parts_case (JPrim PNull)) None = Ok [lit "p: null"; lit "q:"; lit "  r: null"] /\
  encode_lines 0 (JArr [JObj [(lit "s", JPrim PNull)]]) None = Ok [lit "[1]{s}:"; lit "  null"].
Proof.
  split; [intros [|? [|[] ?]]; discriminate|]. split; [intros (f & r & _ & (a & b & E & _) & _); discriminate|].
  split.
  - exists [lit "s"], [[PNull]]. split; [discriminate|]. split; [now eexists _, _|]. constructor; [|constructor]. eexists. split; [reflexivity|]. split; [reflexivity|].
    constructor; [|constructor]. exists [], []. split; [reflexivity|intros []].
  - repeat split; vm_compute; reflexivity.
Qed.
