(** C70: every item has its block, every row its line, wherever it stands and whatever is folded. *)
From Verif Require Import Chars Floats Json JsonInd Lex Spec Normalize JsonEq EncodeApi TextProof SpecText SpecParts FoldShort SizeProof PropsText PartsProof PropsItemsFold.

Local Open Scope nat_scope.

Section Options.
Variable indent : option nat.
Variable delimiter : option char.
Variable mode : option key_folding_mode.
Variable depth : option N.
Let dl := unwrap_or delimiter cCOMMA.
Let dp := unwrap_or depth 18446744073709551615%N.
Let ind := unwrap_or indent 2.
Let fold := match mode with Some KFSafe => true | _ => false end.
Let norm := normalize_json_value.
Notation lines v := (encode_lines 0 v (Some (EncOpts indent delimiter mode depth None))).
Notation text := (text indent delimiter mode depth).
Notation document := (document f64_to_string dl fold dp).
Notation array := (array f64_to_string dl fold dp).
Notation items := (items f64_to_string dl fold dp).
Notation item := (item f64_to_string dl fold dp).

Lemma text_of' v ls : text v ls <-> exists doc, document (norm v) doc /\ ls = map (shown ind) doc.
Proof. exact (text_of indent delimiter mode depth v ls). Qed.
Lemma list_lines l is h : (forall ps, l <> map JPrim ps) -> ~ tabled l -> items 1 (map norm l) is -> header dl None (length l) None h ->
  text (JArr l) (h :: map (shown ind) is).
Proof.
  intros N1 N2 Il Hh. apply text_of'. exists ((0, h) :: is). split; [|cbn [map]; unfold shown at 2; cbn [fst snd]; now rewrite Nat.mul_0_r].
  change (norm (JArr l)) with (JArr (map norm l)). apply do_arr. apply ar_list.
  - now apply prims_norm.
  - intros _ fields rows T. apply N2, tabled_norm. now exists fields, rows.
  - now rewrite map_length.
  - exact Il.
Qed.
(** The block of a value, read off the text of an array that has it as second item. *)
Definition block_of (v : json) : list str := match lines (JArr [JArr []; v]) with Ok (_ :: _ :: b) => b | _ => [] end.
Lemma block_item v : exists a, item 1 (norm v) a /\ block_of v = map (shown ind) a.
Proof.
  assert (Np : forall ps, [JArr []; v] <> map JPrim ps) by (intros [|p ps]; discriminate).
  assert (Nt : ~ tabled [JArr []; v]) by (intros (f & r & _ & (x & y & E & _) & _); discriminate).
  destruct (C46_one_text (norm (JArr [JArr []; v])) dl fold dp) as (doc & D & _).
  change (norm (JArr [JArr []; v])) with (JArr [JArr []; norm v]) in D. inversion D as [|? ? A|]; subst.
  inversion A as [|? ? ? p ps ? ? ? ? E|? ? ? f rows ? ? Ht|? ? ? ? h is N1 N2 Hh Is]; subst.
  - exfalso. apply Nt, tabled_norm. now exists f, rows.
  - inversion Is as [|? ? ? b1 b2 I1 Is2]; subst. inversion Is2 as [|? ? ? a b3 I2 Is3]; subst. inversion Is3; subst. rewrite app_nil_r in *.
    exists a. split; [exact I2|]. unfold block_of.
    assert (T : text (JArr [JArr []; v]) (h :: map (shown ind) (b1 ++ a))).
    { apply list_lines; auto. }
    unfold PartsProof.text in T. rewrite T. inversion I1 as [|? ? t ls A1| |]; subst. inversion A1 as [|? ? ? ? ? ? ? ? ? E|? ? ? ? ? ? ? T1|? ? ? ? ? ? N _ _ Ix]; subst.
    + cbn [map app]. reflexivity.
    + exfalso. now apply (N []).
Qed.

(** Every value has a block of lines that it contributes to every array written as a list: such an array is its
    header and the blocks of its items.  So items can be added, removed and reordered without touching the lines
    of others, whatever is folded in them. *)
Theorem C70_blocks :
  exists block : json -> list str, forall (l : list json), (forall ps, l <> map JPrim ps) -> ~ tabled l ->
    exists h, header dl None (length l) None h /\ lines (JArr l) = Ok (h :: concat (map block l)).
Proof.
  exists block_of. intros l N1 N2. exists (EncPrim.format_header (length l) None None dl). split; [now apply header_spec|].
  assert (X : exists is, items 1 (map norm l) is /\ map (shown ind) is = concat (map block_of l)).
  { clear N1 N2. induction l as [|v l (is & Il & E)]; [exists []; split; [constructor|reflexivity]|].
    destruct (block_item v) as (a & Ia & Ea). exists (a ++ is). split; [now constructor|]. cbn [map concat]. now rewrite map_app, E, Ea. }
  destruct X as (is & Il & <-). apply list_lines; auto. now apply header_spec.
Qed.

Lemma table_lines l fields rows ts h : table l fields rows -> table (map norm l) fields ts -> forall tx, Forall2 (row f64_to_string dl) ts tx ->
  header dl None (length l) (Some fields) h -> text (JArr l) (h :: map (fun t => repeat cSPACE ind ++ t) tx).
Proof.
  intros T T' tx R Hh. apply text_of'. exists ((0, h) :: map (fun t => (1, t)) tx). split.
  - change (norm (JArr l)) with (JArr (map norm l)). apply do_arr. apply ar_table with fields ts; auto. now rewrite map_length.
  - cbn [map]. unfold shown at 1. cbn [fst snd]. rewrite Nat.mul_0_r. cbn [repeat app]. f_equal. rewrite map_map. apply map_ext. intros t. unfold shown. cbn [fst snd]. now rewrite Nat.mul_1_r.
Qed.
(** The line of a row, read off a table that has it as second row. *)
Definition blank_row (fields : list str) : json := JObj (map (fun f => (f, JPrim PNull)) fields).
Definition line_of (fields : list str) (v : json) : str := match lines (JArr [blank_row fields; v]) with Ok [_; _; s] => s | _ => [] end.
Lemma blank_cells fields : table_row fields (blank_row fields) (map (fun _ => PNull) fields).
Proof.
  eexists. split; [reflexivity|]. split; [apply map_length|].
  assert (H : forall f, In f fields -> first_member (map (fun f => (f, JPrim PNull)) fields) f (JPrim PNull)).
  { induction fields as [|g fields IH]; intros f [].
    - subst. exists [], (map (fun f => (f, JPrim PNull)) fields). split; [reflexivity|intros []].
    - destruct (str_eq_dec g f) as [->|Ne]; [exists [], (map (fun f => (f, JPrim PNull)) fields); split; [reflexivity|intros []]|].
      destruct (IH f H) as (a & b & E & Na). exists ((g, JPrim PNull) :: a), b. cbn [map]. rewrite E. split; [reflexivity|]. intros [X|X]; [now apply Ne in X|contradiction]. }
  revert H. generalize (map (fun f : str => (f, JPrim PNull)) fields) as es. induction fields as [|f fields IH]; intros es H; cbn [map]; constructor.
  - apply H. now left.
  - apply IH. intros g I. apply H. now right.
Qed.

(** Likewise every row has a line that it contributes to every table with these fields. *)
Theorem C70_row_lines :
  exists line : list str -> json -> str, forall (l : list json) (fields : list str) rows, table l fields rows ->
    exists h, header dl None (length l) (Some fields) h /\ lines (JArr l) = Ok (h :: map (line fields) l).
Proof.
  exists line_of. intros l fields rows T. exists (EncPrim.format_header (length l) None (Some fields) dl). split; [now apply header_spec|].
  destruct (normalize_table _ _ _ T) as (ts & T').
  assert (Ne : fields <> []) by (now destruct T).
  assert (Ln : forall v cells cells', table_row fields v cells -> table_row fields (norm v) cells' ->
    line_of fields v = repeat cSPACE ind ++ EncPrim.encode_and_join_primitives cells' dl).
  { intros v cells cells' R R'. pose proof (blank_cells fields) as B.
    assert (Kb : map fst (map (fun f : str => (f, JPrim PNull)) fields) = fields) by (rewrite map_map; apply map_id).
    assert (T1 : table [blank_row fields; v] fields [map (fun _ => PNull) fields; cells]).
    { split; [exact Ne|]. split; [eexists _, _; split; [reflexivity|exact Kb]|]. constructor; [exact B|]. constructor; [exact R|constructor]. }
    assert (Eb : norm (blank_row fields) = blank_row fields).
    { unfold blank_row. cbn [norm normalize_json_value]. f_equal. rewrite map_map. reflexivity. }
    assert (T2 : table (map norm [blank_row fields; v]) fields [map (fun _ => PNull) fields; cells']).
    { cbn [map]. rewrite Eb. split; [exact Ne|]. split; [eexists _, _; split; [reflexivity|exact Kb]|]. constructor; [exact B|]. constructor; [exact R'|constructor]. }
    unfold line_of. pose proof (table_lines _ _ _ _ (EncPrim.format_header 2 None (Some fields) dl) T1 T2
      [EncPrim.encode_and_join_primitives (map (fun _ => PNull) fields) dl; EncPrim.encode_and_join_primitives cells' dl]) as X.
    unfold PartsProof.text in X. rewrite X; [reflexivity| |now apply header_spec].
    constructor; [now apply row_spec|]. constructor; [now apply row_spec|constructor]. }
  assert (E : map (line_of fields) l = map (fun t => repeat cSPACE ind ++ t) (map (fun r => EncPrim.encode_and_join_primitives r dl) ts)).
  { destruct T as (_ & _ & F), T' as (_ & _ & F'). clear - Ln F F'. revert ts F'. induction F as [|v cells l rows R F IH]; intros ts F'; inversion F' as [|? c ? ts' R' F2]; subst; [reflexivity|].
    cbn [map]. rewrite (Ln _ _ _ R R'). f_equal. now apply IH. }
  rewrite E. eapply table_lines; [exact T|exact T'| |now apply header_spec].
  clear. induction ts as [|r ts IH]; cbn [map]; constructor; [now apply row_spec|exact IH].
Qed.
End Options.
Print Assumptions C70_blocks.
Print Assumptions C70_row_lines.

(** Two objects whose first members have something to fold, in both orders. *)
Example C70_blocks_case :
  let lines := fun v => encode_lines 0 v (Some (EncOpts None None (Some KFSafe) None None)) in
  let a := JObj [(lit "a", JObj [(lit "b", JPrim PNull)]); (lit "c", JObj [(lit "d.e", JArr [])])] in
  let b := JObj [(lit "x", JPrim PNull); (lit "y", JObj [(lit "z", JPrim PNull)])] in
  lines (JArr [a; b]) = Ok [lit "[2]:"; lit "  - a:"; lit "      b: null"; lit "    c:"; lit "      d.e[0]:"; lit "  - x: null"; lit "    y.z: null"] /\
  lines (JArr [b; a]) = Ok [lit "[2]:"; lit "  - x: null"; lit "    y.z: null"; lit "  - a:"; lit "      b: null"; lit "    c:"; lit "      d.e[0]:"].
Proof. split; vm_compute; reflexivity. Qed.
Example C70_row_lines_case :
  let r := fun x y => JObj [(lit "b", JPrim y); (lit "a", JPrim x)] in
  let first := fun x y => JObj [(lit "a", JPrim x); (lit "b", JPrim y)] in
  encode_lines 0 (JArr [first PNull (PBool true); r (PBool false) PNull]) None = Ok [lit "[2]{a,b}:"; lit "  null,true"; lit "  false,null"] /\
  encode_lines 0 (JArr [r (PBool false) PNull; first PNull (PBool true)]) None = Ok [lit "[2]{b,a}:"; lit "  null,false"; lit "  true,null"].
Proof. split; vm_compute; reflexivity. Qed.
