(** C64: whitespace at the ends of lines, and line ends with a carriage return. *)
From Verif Require Import Chars Floats Json Shared Scanner EncPrim Normalize Encoders EncodeApi Decoders EventBuilder DecodeApi
  Lex NumProof LayFacts Spec JsonEq SpecText TextProof LayEnc CliPath RoundExact EncTotal DecRelax PadProof PropsText.

Local Open Scope nat_scope.

(** * What is added *)

(** Whitespace that ends no line and separates no cells. *)
Definition trailing (w : str) : Prop := Forall (fun c => is_ws c = true /\ c <> cTAB /\ c <> cLF) w.
(** A hyphen alone on its line. *)
Definition hyphen_line (l : str) : Prop := exists n, l = repeat cSPACE n ++ [cMINUS].
(** The line [l] with whitespace after it; after a hyphen alone nothing is added. *)
Definition respaced_line (l l' : str) : Prop := exists w, l' = l ++ w /\ trailing w /\ (hyphen_line l -> w = []).
Definition respaced (t t' : str) : Prop :=
  exists ls ls', ls <> [] /\ Forall (fun l => ~ In cLF l) ls /\ t = join cLF ls /\ t' = join cLF ls' /\
    Forall2 respaced_line ls ls'.

(** Every line feed gets a carriage return before it. *)
Inductive crlf : str -> str -> Prop :=
| cr_nil : crlf [] []
| cr_end s s' : crlf s s' -> crlf (cLF :: s) (cCR :: cLF :: s')
| cr_char c s s' : c <> cLF -> crlf s s' -> crlf (c :: s) (c :: s').
(** A line of [t] that is followed by a line feed consists of spaces and a hyphen. *)
Definition bare_hyphen (t : str) : Prop :=
  exists a n b, (a = [] \/ exists r, a = r ++ [cLF]) /\ t = a ++ repeat cSPACE n ++ cMINUS :: cLF :: b.

(** * Decoding *)

Lemma count_repeat n : count_spaces (repeat cSPACE n ++ [cMINUS]) = n.
Proof. induction n; cbn; auto. Qed.
Lemma respaced_padded l l' : respaced_line l l' -> padded l l'.
Proof.
  intros (w & -> & Hw & Hh). exists w. split; [|split; auto].
  - revert Hw. apply Forall_impl. tauto.
  - intros E. apply Hh. exists (count_spaces l). rewrite (count_spaces_spec l) at 1. now rewrite E.
Qed.
Lemma respaced_lines ls ls' : Forall2 respaced_line ls ls' -> Forall2 padded ls ls'.
Proof. induction 1; constructor; auto using respaced_padded. Qed.

(** Lines as they come from an iterator: the events are the same, and so is the error. *)
Theorem C64_lines :
  forall (ls ls' : list str), Forall2 respaced_line ls ls' ->
    (forall o, decode_stream_sync ls' o = decode_stream_sync ls o) /\
    (forall o, try_decode_from_lines ls' o = try_decode_from_lines ls o).
Proof.
  intros ls ls' H. apply respaced_lines in H. split; intros o; [now apply stream_pad|].
  unfold try_decode_from_lines. now rewrite (stream_pad ls ls').
Qed.
Print Assumptions C64_lines.

Lemma respaced_no_lf l l' : respaced_line l l' -> ~ In cLF l -> ~ In cLF l'.
Proof.
  intros (w & -> & Hw & _) H I. apply in_app_or in I as [I|I]; [auto|].
  unfold trailing in Hw. rewrite Forall_forall in Hw. now destruct (Hw _ I) as (_ & _ & []).
Qed.

(** Texts: the value is the same, and so is the error, for every indentation, in both modes, with
    and without path expansion. *)
Theorem C64_texts :
  forall (t t' : str) (o : option decode_options), respaced t t' -> try_decode t' o = try_decode t o.
Proof.
  intros t t' o (ls & ls' & N & L & -> & -> & H). unfold try_decode.
  assert (N' : ls' <> []) by (destruct H; [exact N|discriminate]).
  assert (L' : Forall (fun l => ~ In cLF l) ls').
  { clear N N'. induction H; inversion L; subst; constructor; eauto using respaced_no_lf. }
  rewrite !split_join by auto. now apply C64_lines.
Qed.
Print Assumptions C64_texts.

Lemma crlf_respaced t t' : crlf t t' -> forall pre, ~ In cLF pre -> (forall a, pre ++ t = a -> ~ bare_hyphen a) -> respaced (pre ++ t) (pre ++ t').
Proof.
  induction 1 as [|s s' H IH|c s s' Hc H IH]; intros pre Hp Hb.
  - rewrite app_nil_r. exists [pre], [pre]. split; [discriminate|]. split; [now constructor|]. repeat (split; [reflexivity|]).
    constructor; [|constructor]. exists []. rewrite app_nil_r. repeat split; constructor.
  - destruct (IH []) as (ls & ls' & N & L & E & E' & F).
    + easy.
    + cbn [app]. intros ? <- (a & n & b & Ha & ->). apply (Hb _ eq_refl). exists (pre ++ cLF :: a), n, b. split.
      * right. destruct Ha as [->|(r & ->)]; [now exists pre|]. exists (pre ++ cLF :: r). now rewrite <- app_assoc.
      * now rewrite <- app_assoc.
    + cbn [app] in E, E'. exists (pre :: ls), ((pre ++ [cCR]) :: ls'). split; [discriminate|]. split; [now constructor|].
      split; [rewrite E; destruct ls; [easy|reflexivity]|]. split.
      * rewrite E'. destruct F; [easy|]. cbn [join]. now rewrite <- app_assoc.
      * constructor; [|exact F]. exists [cCR]. split; [reflexivity|]. split; [repeat constructor; discriminate|].
        intros (n & ->). exfalso. apply (Hb _ eq_refl). exists [], n, s. split; [now left|]. now rewrite <- app_assoc.
  - destruct (IH (pre ++ [c])) as (ls & ls' & N & L & E & E' & F).
    + intros I. apply in_app_or in I as [I|[I|[]]]; [auto|congruence].
    + intros ? <-. rewrite <- app_assoc. now apply Hb.
    + exists ls, ls'. rewrite <- app_assoc in E, E'. cbn in E, E'. auto.
Qed.

(** Line feeds may become carriage return and line feed, if no line is a hyphen alone. *)
Theorem C64_crlf :
  forall (t t' : str) (o : option decode_options),
    crlf t t' -> ~ bare_hyphen t -> try_decode t' o = try_decode t o.
Proof.
  intros t t' o H B. apply C64_texts. apply (crlf_respaced t t' H []); [easy|]. now intros a <-.
Qed.
Print Assumptions C64_crlf.

(** A hyphen alone does not survive it: refused in strict mode, silently dropped in lenient mode. *)
Definition hyphen_case : str := lit "x[1]:" ++ cLF :: lit "  -" ++ cLF :: lit "y: a".
Definition hyphen_crlf : str := lit "x[1]:" ++ cCR :: cLF :: lit "  -" ++ cCR :: cLF :: lit "y: a".
Theorem C64_hyphen_refuted :
  ~ (forall t t' o, crlf t t' -> try_decode t' o = try_decode t o).
Proof.
  intros H. specialize (H hyphen_case hyphen_crlf None).
  assert (C : crlf hyphen_case hyphen_crlf).
  { unfold hyphen_case, hyphen_crlf, lit. cbn.
    repeat first [apply cr_nil|apply cr_end|apply cr_char; [discriminate|]]. }
  apply H in C. vm_compute in C. discriminate.
Qed.
Print Assumptions C64_hyphen_refuted.
Example C64_hyphen_case :
  try_decode hyphen_case None = Ok (JObj [(lit "x", JArr [JObj []]); (lit "y", JPrim (PStr (lit "a")))]) /\
  try_decode hyphen_crlf None = Err (ECount CItems 1 0) /\
  try_decode hyphen_crlf (Some (DecOpts None (Some false) None)) = Ok (JObj [(lit "x", JArr [])]).
Proof. repeat split; vm_compute; reflexivity. Qed.

(** * What the encoder writes *)

(** Some array has an empty object among its items. *)
Inductive empty_item : json -> Prop :=
| ei_here l : In (JObj []) l -> empty_item (JArr l)
| ei_item l v : In v l -> empty_item v -> empty_item (JArr l)
| ei_member l k v : In (k, v) l -> empty_item v -> empty_item (JObj l).

Section Encoded.
Variable dl : char.
Hypothesis Hdl : std_delim dl.
Variables (fold : bool) (depth : N).

Definition hy (ls : list dline) : Prop := exists d, In (d, [cMINUS]) ls.
Lemma hy_nil : ~ hy [].
Proof. now intros (d & []). Qed.
Lemma hy_cons d t ls : t <> [cMINUS] -> (hy ((d, t) :: ls) <-> hy ls).
Proof.
  intros H. split; intros (e & I); [|exists e; now right]. destruct I as [I|I]; [congruence|now exists e].
Qed.
Lemma hy_app a b : hy (a ++ b) <-> hy a \/ hy b.
Proof.
  split; [intros (d & I); apply in_app_or in I as [I|I]; [left|right]; now exists d|].
  intros [(d & I)|(d & I)]; exists d; apply in_or_app; auto.
Qed.

Lemma colon_not (t r : str) : t ++ cCOLON :: r <> [cMINUS].
Proof. destruct t as [|? [|? ?]]; cbn; congruence. Qed.
Lemma header_not key n fs h r : header dl key n fs h -> h ++ r <> [cMINUS].
Proof.
  intros H. destruct H as [key n fs kt nt dt ft _ _ _ _].
  replace ((kt ++ cLBRACK :: nt ++ dt ++ cRBRACK :: ft ++ [cCOLON]) ++ r)
    with ((kt ++ cLBRACK :: nt ++ dt ++ cRBRACK :: ft) ++ cCOLON :: r)
    by (repeat (rewrite <- !app_assoc; cbn [app]); reflexivity).
  apply colon_not.
Qed.
Lemma header_not' key n fs h : header dl key n fs h -> h <> [cMINUS].
Proof. intros H. rewrite <- (app_nil_r h). eapply header_not; eauto. Qed.
Lemma token_some p t : token f64_to_string dl p t -> t <> [] /\ t <> [cMINUS].
Proof.
  intros H. inversion H as [| | |? ? _|x s m e E|? _|s N|s b N (u & _ & ->)]; subst; try (split; discriminate).
  - destruct (f64_to_string_shape x) as (sg & ip & fp & -> & Hi & _ & Hn & _).
    + unfold f64_is_finite. now rewrite E.
    + unfold f64_is_zero. now rewrite E.
    + destruct ip as [|c ip]; [easy|]. split; [destruct sg; discriminate|]. destruct sg; cbn; [discriminate|].
      intros X. injection X as -> X. inversion Hi. discriminate.
  - split; intros ->; apply N; [now left|]. do 6 right. now exists [].
Qed.
Lemma row_not ps t : row f64_to_string dl ps t -> ps <> [] -> t <> [cMINUS].
Proof.
  intros (ts & F & S0) N. destruct S0 as [|t|t u l r S0].
  - inversion F; subst. easy.
  - inversion F as [|? ? ? ? H1 F1]; subst. now apply token_some in H1.
  - inversion F as [|? ? ? ? H1 F1]; subst. apply token_some in H1 as [H1 H2].
    destruct t as [|c0 t]; [easy|]. destruct t; discriminate.
Qed.

Lemma empty_chain v ks z : chain v ks z -> empty_item z -> empty_item v.
Proof. induction 1 as [|k v ks z H IH]; intros E; auto. apply (ei_member _ k v); [now left|auto]. Qed.

Definition head_fine (ls : list dline) : Prop := forall d t r, ls = (d, t) :: r -> t <> [cMINUS].
Lemma hy_head d t d' t' ls : t <> [cMINUS] -> hy ((d', t') :: ls) -> t' <> [cMINUS] -> hy ((d, t) :: ls).
Proof. intros H H' H''. apply hy_cons; auto. apply hy_cons in H'; auto. Qed.

Lemma hyphens :
  (forall c sibs d kv ls, member f64_to_string dl fold depth c sibs d kv ls -> hy ls -> empty_item (snd kv)) /\
  (forall c d k v ls, value_of f64_to_string dl fold depth c d k v ls -> head_fine ls /\ (hy ls -> empty_item v)) /\
  (forall c sibs d l ls, members f64_to_string dl fold depth c sibs d l ls -> hy ls -> empty_item (JObj l)) /\
  (forall t key d l ls, array f64_to_string dl fold depth t key d l ls -> head_fine ls /\ (hy ls -> empty_item (JArr l))) /\
  (forall d l ls, items f64_to_string dl fold depth d l ls -> hy ls -> empty_item (JArr l)) /\
  (forall d v ls, item f64_to_string dl fold depth d v ls -> hy ls -> v = JObj [] \/ empty_item v).
Proof.
  apply text_mutind.
  - intros c sibs d k v ks z ls F _ [_ IH] H. cbn. destruct F as (_ & _ & C & _). eapply empty_chain; eauto.
  - intros c sibs d k v ls _ _ [_ IH] H. cbn. auto.
  - intros c d k p kt t Hk Ht. split; [intros ? ? ? E; injection E as <- <- <-; apply colon_not|].
    intros H. apply hy_cons in H; [now apply hy_nil in H|apply colon_not].
  - intros c d k l kt ls Hk _ IH. split; [intros ? ? ? E; injection E as <- <- <-; apply colon_not|].
    intros H. apply hy_cons in H; [auto|apply colon_not].
  - intros c d k l ls _ IH. exact IH.
  - intros c sibs d H. now apply hy_nil in H.
  - intros c sibs d [k v] l a b _ IH1 _ IH2 H. apply hy_app in H as [H|H].
    + apply (ei_member _ k v); [now left|exact (IH1 H)].
    + specialize (IH2 H). inversion IH2 as [| |? k' v' I E]; subst. apply (ei_member _ k' v'); [now right|exact E].
  - intros t key d h Hh. split; [intros ? ? ? E; injection E as <- <- <-; eapply header_not'; eauto|].
    intros H. apply hy_cons in H; [now apply hy_nil in H|eapply header_not'; eauto].
  - intros t key d p ps h r Hh Hr. split; [intros ? ? ? E; injection E as <- <- <-; eapply header_not; eauto|].
    intros H. apply hy_cons in H; [now apply hy_nil in H|eapply header_not; eauto].
  - intros key d l fields rows h ts Ht Hh Hr. split; [intros ? ? ? E; injection E as <- <- <-; eapply header_not'; eauto|].
    intros H. apply hy_cons in H; [|eapply header_not'; eauto]. exfalso. destruct H as (e & I).
    apply in_map_iff in I as (t & E & I). injection E as _ ->.
    assert (N : Forall (fun r => r <> []) rows) by (apply Forall_forall; intros r; now apply (table_cells l fields)).
    clear - Hr I N. induction Hr as [|r t rows ts H F IH]; [destruct I|]. inversion N; subst.
    destruct I as [->|I]; [|auto]. now apply row_not in H.
  - intros t key d l h ls _ _ Hh _ IH. split; [intros ? ? ? E; injection E as <- <- <-; eapply header_not'; eauto|].
    intros H. apply hy_cons in H; [auto|eapply header_not'; eauto].
  - intros d H. now apply hy_nil in H.
  - intros d v l a b _ IH1 _ IH2 H. apply hy_app in H as [H|H].
    + destruct (IH1 H) as [->|E]; [apply ei_here; now left|apply (ei_item _ v); [now left|exact E]].
    + specialize (IH2 H). inversion IH2 as [? I|? v' I E|]; subst; [apply ei_here; now right|apply (ei_item _ v'); [now right|exact E]].
  - intros d p t Ht H. apply hy_cons in H; [now apply hy_nil in H|discriminate].
  - intros d l t ls _ [Hf IH] H. right. apply IH. apply (hy_cons d t); [now apply (Hf d t ls)|]. apply hy_cons in H; [exact H|discriminate].
  - intros d H. now left.
  - intros d k v l t a b _ [Hf IH1] _ IH2 H. right. apply hy_cons in H; [|discriminate]. apply hy_app in H as [H|H].
    + apply (ei_member _ k v); [now left|]. apply IH1. apply (hy_cons (S d) t); [now apply (Hf (S d) t a)|exact H].
    + specialize (IH2 H). inversion IH2 as [| |? k' v' I E]; subst. apply (ei_member _ k' v'); [now right|exact E].
Qed.
Lemma document_hyphens v ls : document f64_to_string dl fold depth v ls -> hy ls -> empty_item v.
Proof.
  intros D H. destruct D as [p t Ht|l ls A|l dk ls _ M].
  - apply hy_cons in H; [now apply hy_nil in H|now apply token_some in Ht].
  - exact (proj2 (proj1 (proj2 (proj2 (proj2 hyphens))) _ _ _ _ _ A) H).
  - exact (proj1 (proj2 (proj2 hyphens)) _ _ _ _ _ M H).
Qed.
Lemma shown_hyphen size v ls l : document f64_to_string dl fold depth v ls -> In l (map (shown size) ls) -> hyphen_line l -> empty_item v.
Proof.
  intros D I (n & E). apply in_map_iff in I as ([d t] & E' & I). pose proof (document_clean dl Hdl fold depth _ _ D) as C.
  unfold clean_lines in C. rewrite Forall_forall in C. specialize (C _ I). cbn in C.
  rewrite E in E'. unfold shown in E'. cbn in E'.
  apply spaces_split in E' as [_ ->].
  - eapply document_hyphens; eauto. now exists d.
  - intros r ->. destruct C as (_ & [T _] & _). discriminate.
  - discriminate.
Qed.
End Encoded.

Lemma bare_hyphen_line ls : ls <> [] -> Forall (fun l => ~ In cLF l) ls -> bare_hyphen (join cLF ls) ->
  exists l, In l ls /\ hyphen_line l.
Proof.
  intros N L (a & n & b & Ha & E).
  assert (S0 : split_on cLF (join cLF ls) = ls) by now apply split_join.
  rewrite E in S0.
  assert (H : forall t, In (repeat cSPACE n ++ [cMINUS]) (split_on cLF (repeat cSPACE n ++ cMINUS :: cLF :: t))).
  { intros t. replace (repeat cSPACE n ++ cMINUS :: cLF :: t) with ((repeat cSPACE n ++ [cMINUS]) ++ cLF :: t) by now rewrite <- app_assoc.
    rewrite split_on_app; [now left|]. intros I. apply in_app_or in I as [I|[I|[]]]; [apply repeat_spec in I; discriminate|discriminate]. }
  exists (repeat cSPACE n ++ [cMINUS]). split; [|now exists n]. rewrite <- S0.
  destruct Ha as [->|(r & ->)]; [apply H|]. rewrite <- app_assoc. cbn [app]. rewrite split_app.
  apply in_or_app. right. apply H.
Qed.

(** The text of a value that has no empty object among the items of an array: it decodes to the
    same with line feeds and with carriage returns and line feeds. *)
Theorem C64_encoded_crlf :
  forall (v n : json) (indent : option nat) (delimiter : option char) (mode : option key_folding_mode)
         (depth : option N) (text text' : str) (o : option decode_options),
    std_delim (unwrap_or delimiter cCOMMA) -> norm_json v n -> ~ empty_item n ->
    encode 0 v (Some (EncOpts indent delimiter mode depth None)) = Ok text -> crlf text text' ->
    try_decode text' o = try_decode text o.
Proof.
  intros v n indent delimiter mode depth text text' o Hd Hn He E C. apply C64_crlf; auto. intros B. apply He.
  unfold encode in E. destruct (encode_lines 0 v _) as [ls|] eqn:El; [|discriminate]. cbn in E. injection E as <-.
  apply (C46_encoded_text v n _ _ _ _ _ Hn) in El as (doc & D & ->).
  destruct doc as [|l0 doc0]; [exfalso; destruct B as (a & k & b & _ & X); destruct a; [destruct k|]; discriminate X|].
  assert (L : Forall (fun l => ~ In cLF l) (map (shown (unwrap_or indent 2)) (l0 :: doc0))).
  { apply Forall_forall. intros l I. apply in_map_iff in I as ([d t] & <- & I).
    pose proof (document_clean _ Hd _ _ _ _ D) as K. unfold clean_lines in K. rewrite Forall_forall in K.
    specialize (K _ I). destruct K as (_ & _ & K & _). unfold shown. cbn [fst snd]. intros J.
    apply in_app_or in J as [J|J]; [apply repeat_spec in J; discriminate|contradiction]. }
  apply bare_hyphen_line in B as (l & I & H); [|discriminate|exact L].
  eapply shown_hyphen; eauto.
Qed.
Print Assumptions C64_encoded_crlf.

Fixpoint empty_itemb (v : json) : bool :=
  match v with
  | JPrim _ => false
  | JArr l => existsb (fun x => match x with JObj [] => true | _ => empty_itemb x end) l
  | JObj l => existsb (fun kv => empty_itemb (snd kv)) l
  end.
Lemma empty_itemb_ok v : empty_item v -> empty_itemb v = true.
Proof.
  induction 1 as [l I|l v I E IH|l k v I E IH]; cbn; apply existsb_exists.
  - exists (JObj []). auto.
  - exists v. split; auto. destruct v as [|?|[|? ?]]; auto.
  - exists (k, v). auto.
Qed.

(** A document with a table, a list with objects, strings with blanks inside and an empty object. *)
Definition crlf_value : json :=
  JObj [(lit "a", JArr [JObj [(lit "x", JPrim PNull); (lit "y", JPrim (PStr (lit "p q")))];
                        JObj [(lit "x", JPrim (PBool true)); (lit "y", JPrim (PStr (lit "-")))]]);
        (lit "b", JArr [JArr []; JObj [(lit "k", JObj []); (lit "m", JPrim (PStr []))]; JPrim (PStr (lit "z"))])].
Definition crlf_text : str :=
  lit "a[2]{x,y}:" ++ cCR :: cLF :: lit "  null,p q" ++ cCR :: cLF :: lit "  true,""-""" ++ cCR :: cLF ::
  lit "b[3]:" ++ cCR :: cLF :: lit "  - [0]:" ++ cCR :: cLF :: lit "  - k:" ++ cCR :: cLF ::
  lit "    m: """"" ++ cCR :: cLF :: lit "  - z".
Example C64_case :
  ~ empty_item crlf_value /\
  (exists text, encode 0 crlf_value (Some (EncOpts None None None None None)) = Ok text /\ crlf text crlf_text) /\
  try_decode crlf_text None = Ok crlf_value.
Proof.
  split; [|split].
  - intros H. apply empty_itemb_ok in H. vm_compute in H. discriminate.
  - eexists. split; [vm_compute; reflexivity|]. unfold crlf_text, lit. cbn.
    repeat first [apply cr_nil|apply cr_end|apply cr_char; [discriminate|]].
  - vm_compute. reflexivity.
Qed.
(** The same, with blanks and other whitespace after some lines, and an error that stays the same. *)
Example C64_spaces_case :
  respaced (lit "a[2]:" ++ cLF :: lit "  - x" ++ cLF :: lit "  -")
           (lit "a[2]:  " ++ cLF :: lit "  - x" ++ 160%N :: cLF :: lit "  -") /\
  try_decode (lit "a[2]:  " ++ cLF :: lit "  - x" ++ 160%N :: cLF :: lit "  -") None
    = Ok (JObj [(lit "a", JArr [JPrim (PStr (lit "x")); JObj []])]) /\
  respaced (lit "a: ""b") (lit "a: ""b  ") /\
  try_decode (lit "a: ""b  ") None = Err EUnterminatedString.
Proof.
  split; [|split; [vm_compute; reflexivity|split; [|vm_compute; reflexivity]]].
  - exists [lit "a[2]:"; lit "  - x"; lit "  -"], [lit "a[2]:  "; lit "  - x" ++ [160%N]; lit "  -"].
    split; [discriminate|]. split; [repeat constructor; intros H; vm_compute in H; repeat (destruct H as [H|H]; [discriminate|]); destruct H|].
    repeat (split; [reflexivity|]).
    repeat constructor.
    + exists (lit "  "). split; [reflexivity|]. split; [repeat constructor; discriminate|].
      intros (n & E). do 3 (destruct n as [|n]; [discriminate E|]). discriminate E.
    + exists [160%N]. split; [reflexivity|]. split; [repeat constructor; discriminate|].
      intros (n & E). do 3 (destruct n as [|n]; [discriminate E|]). discriminate E.
    + exists []. repeat split. constructor.
  - exists [lit "a: ""b"], [lit "a: ""b  "]. split; [discriminate|].
    split; [repeat constructor; intros H; vm_compute in H; repeat (destruct H as [H|H]; [discriminate|]); destruct H|].
    repeat (split; [reflexivity|]). repeat constructor. exists (lit "  "). split; [reflexivity|]. split; [repeat constructor; discriminate|].
    intros (n & E). destruct n; discriminate E.
Qed.
