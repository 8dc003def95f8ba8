(** C68: key folding and the length of the text. *)
From Verif Require Import Chars Floats Json JsonInd Shared EncPrim Normalize Encoders EncodeApi EncTotal Lex Spec JsonEq ReplaceProof LayEnc TextProof
  SpecText FoldShort PropsText Utf8 Utf8Proof.

Local Open Scope nat_scope.

Lemma total_size (w : char -> nat) indent doc : w cSPACE = 1 -> w cLF = 1 -> doc <> [] ->
  list_sum (map w (join cLF (map (shown indent) doc))) + 1 = size w indent doc.
Proof.
  intros Hs Hl. assert (one : forall d t, list_sum (map w (shown indent (d, t))) + 1 = line_size w indent (d, t)).
  { intros d t. unfold shown, line_size, weight. cbn [fst snd]. rewrite map_app, list_sum_app. f_equal. f_equal.
    induction (indent * d) as [|n IH]; [reflexivity|]. cbn [repeat map list_sum fold_right]. fold (list_sum (map w (repeat cSPACE n))). rewrite IH, Hs. reflexivity. }
  induction doc as [|[d t] doc IH]; [easy|]. intros _. rewrite size_cons. destruct doc as [|l doc].
  - cbn [map join]. rewrite one. unfold size. cbn. lia.
  - change (join cLF (map (shown indent) ((d, t) :: l :: doc))) with (shown indent (d, t) ++ cLF :: join cLF (map (shown indent) (l :: doc))).
    rewrite map_app, list_sum_app. cbn [map list_sum fold_right]. fold (list_sum (map w (join cLF (shown indent l :: map (shown indent) doc)))).
    specialize (IH ltac:(discriminate)). cbn [map] in IH. rewrite Hl, <- one, <- IH. lia.
Qed.
Lemma utf8_size s : length (utf8 s) = list_sum (map (fun c => length (utf8_char c)) s).
Proof. induction s as [|c s IH]; [reflexivity|]. rewrite utf8_cons, app_length, IH. reflexivity. Qed.
Lemma char_size (s : str) : length s = list_sum (map (fun _ => 1) s).
Proof. induction s as [|c s IH]; [reflexivity|]. cbn [length map]. rewrite IH. reflexivity. Qed.

Lemma unfolded_mode v n indent delimiter mode depth ls : norm_json v n -> mode <> Some KFSafe ->
  encode_lines 0 v (Some (EncOpts indent delimiter mode depth None)) = Ok ls ->
  exists doc, document f64_to_string (unwrap_or delimiter cCOMMA) false (unwrap_or depth 18446744073709551615%N) n doc /\ ls = map (shown (unwrap_or indent 2)) doc.
Proof.
  intros N M E. apply (C46_encoded_text v n indent delimiter mode depth ls N) in E. destruct mode as [[]|]; try exact E. now destruct M.
Qed.

Lemma no_lines dl fold k v doc : document f64_to_string dl fold k v doc -> doc = [] -> v = JObj [].
Proof.
  assert (Ha : forall t key d l ls, SpecText.array f64_to_string dl fold k t key d l ls -> ls <> []) by (intros t key d l ls H; inversion H; discriminate).
  assert (Hv : forall c d key v ls, value_of f64_to_string dl fold k c d key v ls -> ls <> []).
  { intros c d key x ls H. inversion H; subst; [discriminate..|]. eapply Ha; eauto. }
  assert (Hm : forall c sibs d kv ls, SpecText.member f64_to_string dl fold k c sibs d kv ls -> ls <> []).
  { intros c sibs d kv ls H. inversion H; subst; eapply Hv; eauto. }
  intros D E. destruct D as [p t T|l ls A|l dk ls K M]; [discriminate|now apply Ha in A|]. subst ls. inversion M as [|? ? ? ? ? a b A B]; subst; [reflexivity|].
  apply Hm in A. now destruct a.
Qed.

(** Folding keys gives the same text, or a text with fewer lines that is shorter by at least one
    character, and one byte, for every line it saves. *)
Theorem C68_folding_shortens :
  forall (v : json) (indent : option nat) (delimiter : option char) (mode : option key_folding_mode) (depth depth' : option N)
         (ls ls' : list str),
    mode <> Some KFSafe ->
    encode_lines 0 v (Some (EncOpts indent delimiter mode depth' None)) = Ok ls ->
    encode_lines 0 v (Some (EncOpts indent delimiter (Some KFSafe) depth None)) = Ok ls' ->
    ls' = ls \/
    length ls' < length ls /\
    length (join cLF ls') + (length ls - length ls') <= length (join cLF ls) /\
    length (utf8 (join cLF ls')) + (length ls - length ls') <= length (utf8 (join cLF ls)).
Proof.
  intros v indent delimiter mode depth depth' ls ls' M E E'. pose proof (normalize_spec v) as N.
  destruct (unfolded_mode v _ indent delimiter mode depth' ls N M E) as (doc & D & ->).
  apply (C46_encoded_text v _ indent delimiter (Some KFSafe) depth ls' N) in E' as (doc' & D' & ->). cbv iota in D'.
  set (dl := unwrap_or delimiter cCOMMA) in *. set (k := unwrap_or depth' 18446744073709551615%N) in *.
  assert (U : forall a b, document f64_to_string dl false k (normalize_json_value v) a -> document f64_to_string dl false k (normalize_json_value v) b -> a = b).
  { intros a b Da Db. destruct (C46_one_text (normalize_json_value v) dl false k) as (c & _ & H). now rewrite (H _ Da), (H _ Db). }
  assert (Z : forall w, w cDOT <= 1 -> 1 <= w cCOLON -> shorter w (unwrap_or indent 2) doc' doc).
  { intros w W1 W2. eapply shorter_document; eauto. }
  destruct (Z (fun _ => 1)) as [->|[L Z1]]; [apply le_n|apply le_n|now left|]. right. rewrite !map_length. split; [exact L|].
  assert (doc' <> []).
  { intros ->. rewrite (no_lines _ _ _ _ _ D' eq_refl) in D. inversion D as [| |l dk ls K Mm]; subst. inversion Mm; subst. now apply Nat.lt_irrefl in L. }
  assert (doc <> []) by (intros ->; inversion L).
  split.
  - rewrite !char_size. pose proof (total_size (fun _ => 1) (unwrap_or indent 2) doc' eq_refl eq_refl H).
    pose proof (total_size (fun _ => 1) (unwrap_or indent 2) doc eq_refl eq_refl H0). lia.
  - rewrite !utf8_size. set (w := fun c => length (utf8_char c)). destruct (Z w) as [->|[_ Z2]]; [apply le_n|apply le_n|now apply Nat.lt_irrefl in L|].
    pose proof (total_size w (unwrap_or indent 2) doc' eq_refl eq_refl H). pose proof (total_size w (unwrap_or indent 2) doc eq_refl eq_refl H0). lia.
Qed.
Print Assumptions C68_folding_shortens.

(** A chain of two keys: one line and seven characters saved. *)
Example C68_case :
  let v := JObj [(lit "a", JObj [(lit "b", JObj [(lit "c", JPrim PNull); (lit "d", JPrim PNull)])]); (lit "e", JPrim PNull)] in
  encode_lines 0 v None = Ok [lit "a:"; lit "  b:"; lit "    c: null"; lit "    d: null"; lit "e: null"] /\
  encode_lines 0 v (Some (EncOpts None None (Some KFSafe) None None)) = Ok [lit "a.b:"; lit "  c: null"; lit "  d: null"; lit "e: null"].
Proof. split; vm_compute; reflexivity. Qed.
(** A greater flatten depth does not always give a shorter text: the longer folded key may be taken. *)
Theorem C68_deeper_is_shorter_refuted :
  exists v text text', encode 0 v (Some (EncOpts None None (Some KFSafe) (Some 2%N) None)) = Ok text /\
    encode 0 v (Some (EncOpts None None (Some KFSafe) (Some 3%N) None)) = Ok text' /\ length text < length text'.
Proof.
  exists (JObj [(lit "a", JObj [(lit "b", JObj [(lit "c", JPrim PNull)])]); (lit "a.b.c", JPrim PNull)]). eexists _, _.
  split; [vm_compute; reflexivity|]. split; [vm_compute; reflexivity|]. vm_compute. lia.
Qed.
Print Assumptions C68_deeper_is_shorter_refuted.
