(** The characters of an encoded text come from the value or are ASCII; the same for JSON texts. *)
From Coq Require Import SpecFloat Permutation.
From Verif Require Import Chars Floats Json JsonInd NumProof Spec SpecText SpecJson SpecSerde JsonGrammar Utf8.

Local Open Scope nat_scope.

(** All strings and keys of a value consist of characters satisfying [P]. *)
Inductive spelled (P : char -> Prop) : json -> Prop :=
| sl_prim p : (forall s, p = PStr s -> Forall P s) -> spelled P (JPrim p)
| sl_arr l : Forall (spelled P) l -> spelled P (JArr l)
| sl_obj l : Forall (fun kv => Forall P (fst kv) /\ spelled P (snd kv)) l -> spelled P (JObj l).

Section Kept.
Variable P : char -> Prop.
Hypothesis ascii : forall c, (c < 128)%N -> P c.

Ltac letter := apply ascii; first [lia | reflexivity].
Lemma lit_ok s : Forall (fun c => (c < 128)%N) s -> Forall P s.
Proof. intros H. eapply Forall_impl; [|exact H]. exact ascii. Qed.
Lemma escaped_ok s t : escaped s t -> Forall P s -> Forall P t.
Proof.
  induction 1 as [|c s t _ _ IH|c e s t He _ IH]; intros H; [constructor| |]; inversion H; subst.
  - constructor; auto.
  - constructor; [letter|]. constructor; [|auto]. cbn in He.
    repeat destruct He as [He|He]; try contradiction; injection He as <- <-; letter.
Qed.
Lemma quoted_ok s t : quoted_text s t -> Forall P s -> Forall P t.
Proof.
  intros (b & Hb & ->) H. constructor; [letter|]. apply Forall_app. split; [eapply escaped_ok; eauto|].
  constructor; [letter|constructor].
Qed.
Lemma key_ok k t : key_text k t -> Forall P k -> Forall P t.
Proof. intros [[_ ->]|[_ H]] Hk; [exact Hk|eapply quoted_ok; eauto]. Qed.
Lemma digits_ok ds : Forall digit ds -> Forall P ds.
Proof. apply Forall_impl. intros c Hc. unfold digit in Hc. letter. Qed.
Lemma number_ok x s m e : f64_sf x = S754_finite s m e -> Forall P (f64_to_string x).
Proof.
  intros E. destruct (f64_to_string_shape x) as (sg & ip & fp & -> & Hi & Hf & _).
  - unfold f64_is_finite. now rewrite E.
  - unfold f64_is_zero. now rewrite E.
  - assert (D : forall ds, all_digits ds -> Forall P ds).
    { intros ds. apply Forall_impl. intros c Hc. unfold is_digit in Hc. apply andb_true_iff in Hc as [H1 H2].
      apply N.leb_le in H1, H2. letter. }
    apply Forall_app. split; [destruct sg; constructor; [letter|constructor]|].
    apply Forall_app. split; [auto|]. destruct (is_empty fp); constructor; [letter|auto].
Qed.
Ltac ascii_list := repeat (constructor; [letter|]); constructor.

Variable dl : char.
Hypothesis Hdl : P dl.
Notation token := (token f64_to_string dl).
Notation row := (row f64_to_string dl).
Notation separated := (separated dl).
Notation header := (header dl).

Lemma token_ok p t : token p t -> spelled P (JPrim p) -> Forall P t.
Proof.
  intros H Hs. inversion Hs as [q Hp| |]; subst. destruct H; try ascii_list.
  - eapply number_ok; eauto.
  - eapply Hp; eauto.
  - eapply quoted_ok; eauto.
Qed.
Lemma separated_ok ts t : separated ts t -> Forall (Forall P) ts -> Forall P t.
Proof.
  induction 1 as [|t|t u l r _ IH]; intros H; [constructor|now inversion H|].
  inversion H; subst. apply Forall_app. split; [assumption|]. constructor; auto.
Qed.
Lemma row_ok ps t : row ps t -> Forall (fun p => spelled P (JPrim p)) ps -> Forall P t.
Proof.
  intros (ts & F & H) Hp. eapply separated_ok; [exact H|]. clear H.
  induction F as [|p u ps ts Hu _ IH]; constructor; inversion Hp; subst; [eapply token_ok; eauto|auto].
Qed.
Definition key_fine (key : option str) : Prop := match key with Some k => Forall P k | None => True end.
Lemma header_ok key n fields t : header key n fields t -> key_fine key ->
  (forall fs, fields = Some fs -> Forall (Forall P) fs) -> Forall P t.
Proof.
  intros H Hk Hf. destruct H as [key n fields kt nt dt ft Hkt (Hnt & _) Hdt Hft].
  apply Forall_app. split; [destruct key; [eapply key_ok; eauto|subst; constructor]|].
  constructor; [letter|]. apply Forall_app. split; [apply digits_ok, Hnt|].
  apply Forall_app. split; [destruct Hdt as [[_ ->]|[_ ->]]; repeat constructor; exact Hdl|].
  constructor; [letter|]. apply Forall_app. split; [|ascii_list].
  destruct fields as [fs|]; [|subst; constructor]. destruct Hft as (ts & b & F & Hb & ->). specialize (Hf fs eq_refl).
  constructor; [letter|]. apply Forall_app. split; [|ascii_list]. eapply separated_ok; [exact Hb|]. clear Hb.
  induction F as [|k u fs ts Hu _ IH]; constructor; inversion Hf; subst; [eapply key_ok; eauto|auto].
Qed.
Lemma chain_ok v ks z : chain v ks z -> spelled P v -> Forall (Forall P) ks /\ spelled P z.
Proof.
  induction 1 as [v|k v ks z _ IH]; intros Hv; [split; [constructor|exact Hv]|]. inversion Hv as [| |l Hl]; subst.
  inversion Hl as [|? ? [H1 H2] _]; subst. cbn [fst snd] in *. destruct (IH H2). split; [constructor|]; auto.
Qed.
Lemma join_ok ks : Forall (Forall P) ks -> Forall P (join cDOT ks).
Proof.
  induction 1 as [|k ks Hk _ IH]; [constructor|]. destruct ks as [|k' ks]; [exact Hk|].
  cbn [join] in *. apply Forall_app. split; [exact Hk|]. constructor; [letter|exact IH].
Qed.
Lemma map_prim_ok ps : Forall (spelled P) (map JPrim ps) -> Forall (fun p => spelled P (JPrim p)) ps.
Proof. intros H. rewrite Forall_forall in *. intros p Hp. apply H. now apply in_map. Qed.
Lemma table_fields_ok l fields rows : table l fields rows -> Forall (spelled P) l ->
  Forall (Forall P) fields /\ Forall (Forall (fun p => spelled P (JPrim p))) rows.
Proof.
  intros (_ & (first & r & El & Ef) & F) H. split.
  - subst. inversion H as [|? ? Hf _]; subst. inversion Hf as [| |? Ho]; subst.
    apply Forall_forall. intros k Hk. apply in_map_iff in Hk as ([k' x] & <- & Hk). rewrite Forall_forall in Ho.
    exact (proj1 (Ho _ Hk)).
  - clear El Ef first r. induction F as [|v cells l rows (es & -> & _ & G) _ IH]; constructor; inversion H as [|? ? Hv ?]; subst; auto.
    inversion Hv as [| |? Ho]; subst. clear - G Ho. induction G as [|f p fs ps (a & b & -> & _) _ IH]; constructor; auto.
    apply Forall_app in Ho as [_ Ho]. inversion Ho as [|? ? [_ Hp] _]; subst. exact Hp.
Qed.

Variable fold : bool.
Variable fdepth : N.
Definition lines_ok (ls : list dline) : Prop := Forall (fun l => Forall P (snd l)) ls.

Lemma text_ok :
  (forall c sibs d kv ls, member f64_to_string dl fold fdepth c sibs d kv ls -> Forall P (fst kv) -> spelled P (snd kv) -> lines_ok ls) /\
  (forall c d k v ls, value_of f64_to_string dl fold fdepth c d k v ls -> Forall P k -> spelled P v -> lines_ok ls) /\
  (forall c sibs d l ls, members f64_to_string dl fold fdepth c sibs d l ls ->
     Forall (fun kv => Forall P (fst kv) /\ spelled P (snd kv)) l -> lines_ok ls) /\
  (forall t key d l ls, array f64_to_string dl fold fdepth t key d l ls -> key_fine key -> Forall (spelled P) l -> lines_ok ls) /\
  (forall d l ls, items f64_to_string dl fold fdepth d l ls -> Forall (spelled P) l -> lines_ok ls) /\
  (forall d v ls, item f64_to_string dl fold fdepth d v ls -> spelled P v -> lines_ok ls).
Proof.
  unfold lines_ok. apply text_mutind; cbn [fst snd].
  - intros c sibs d k v ks z ls (_ & _ & Hc & _) _ IH Hk Hv. destruct (chain_ok _ _ _ Hc Hv) as [H1 H2].
    apply IH; [apply join_ok; now constructor|exact H2].
  - intros c sibs d k v ls _ _ IH Hk Hv. now apply IH.
  - intros c d k p kt t Hkt Ht Hk Hv. constructor; [|constructor]. cbn [snd]. apply Forall_app. split; [eapply key_ok; eauto|].
    constructor; [letter|]. constructor; [letter|]. eapply token_ok; eauto.
  - intros c d k l kt ls Hkt _ IH Hk Hv. constructor; [cbn [snd]; apply Forall_app; split; [eapply key_ok; eauto|ascii_list]|].
    apply IH. now inversion Hv.
  - intros c d k l ls _ IH Hk Hv. apply IH; [exact Hk|now inversion Hv].
  - constructor.
  - intros c sibs d kv l a b _ IHa _ IHb H. inversion H as [|? ? [H1 H2] H3]; subst. apply Forall_app. auto.
  - intros t key d h Hh Hk _. constructor; [|constructor]. cbn [snd]. eapply header_ok; eauto. discriminate.
  - intros t key d p ps h r Hh Hr Hk Hl. constructor; [|constructor]. cbn [snd]. apply Forall_app.
    split; [eapply header_ok; eauto; discriminate|]. constructor; [letter|]. eapply row_ok; [exact Hr|]. now apply map_prim_ok.
  - intros key d l fields rows h ts Ht Hh F Hk Hl. destruct (table_fields_ok _ _ _ Ht Hl) as [H1 H2].
    constructor; [cbn [snd]; eapply header_ok; [exact Hh|exact Hk|]; intros fs Ef; injection Ef as <-; exact H1|].
    clear - F H2 ascii Hdl. induction F as [|r t rows ts Hr _ IH]; cbn [map]; constructor; inversion H2; subst; [cbn [snd]; eapply row_ok; eauto|auto].
  - intros t key d l h ls _ _ Hh _ IH Hk Hl. constructor; [cbn [snd]; eapply header_ok; eauto; discriminate|auto].
  - constructor.
  - intros d v l a b _ IHa _ IHb H. inversion H; subst. apply Forall_app. auto.
  - intros d p t Ht Hv. constructor; [|constructor]. cbn [snd]. constructor; [letter|]. constructor; [letter|]. eapply token_ok; eauto.
  - intros d l t ls _ IH Hv. inversion Hv; subst. specialize (IH I ltac:(assumption)). inversion IH; subst. cbn [snd] in *.
    constructor; [cbn [snd]; constructor; [letter|]; constructor; [letter|]; assumption|assumption].
  - intros d _. constructor; [|constructor]. cbn [snd]. ascii_list.
  - intros d k v l t a b _ IHv _ IHm Hv. inversion Hv as [| |? Ho]; subst. inversion Ho as [|? ? [H1 H2] H3]; subst. cbn [fst snd] in *.
    specialize (IHv H1 H2). inversion IHv; subst. cbn [snd] in *.
    constructor; [cbn [snd]; constructor; [letter|]; constructor; [letter|]; assumption|]. apply Forall_app. auto.
Qed.
Lemma document_ok v doc : document f64_to_string dl fold fdepth v doc -> spelled P v -> lines_ok doc.
Proof.
  destruct text_ok as (_ & _ & Hms & Har & _ & _).
  intros H Hv. destruct H as [p t Ht|l ls Ha|l dk ls _ Hm]; inversion Hv; subst.
  - constructor; [|constructor]. cbn [snd]. eapply token_ok; eauto.
  - eapply Har; eauto. exact I.
  - eapply Hms; eauto.
Qed.
Lemma shown_ok indent doc : lines_ok doc -> Forall (Forall P) (map (shown indent) doc).
Proof using ascii.
  induction 1 as [|l doc Hl _ IH]; cbn [map]; constructor; [|exact IH]. unfold shown. apply Forall_app. split; [|exact Hl].
  apply Forall_forall. intros c Hc. apply repeat_spec in Hc. rewrite Hc. clear fdepth. letter.
Qed.
Lemma join_lines_ok sep ls : P sep -> Forall (Forall P) ls -> Forall P (join sep ls).
Proof.
  intros Hs. induction 1 as [|k ks Hk _ IH]; [constructor|]. destruct ks as [|k' ks]; [exact Hk|].
  cbn [join] in *. apply Forall_app. split; [exact Hk|]. now constructor.
Qed.
End Kept.

Lemma spelled_weaken (P Q : char -> Prop) v : (forall c, P c -> Q c) -> spelled P v -> spelled Q v.
Proof.
  intros HPQ. induction v as [p|l IH|l IH] using json_ind'; intros H; inversion H as [? Hp|? Hl|? Hl]; subst; constructor.
  - intros s Es. eapply Forall_impl; [exact HPQ|auto].
  - rewrite Forall_forall in *. auto.
  - rewrite Forall_forall in *. intros kv Hkv. destruct (Hl kv Hkv). split; [eapply Forall_impl; [exact HPQ|assumption]|auto].
Qed.
(** Values that differ in what is no string. *)
Lemma spelled_norm P v n : norm_json v n -> spelled P v -> spelled P n.
Proof.
  revert n. induction v as [p|l IH|l IH] using json_ind'; intros n H Hs; inversion H as [? ? Hp|? ? F|? ? F]; subst; inversion Hs as [? Hps|? Hl|? Hl]; subst; constructor.
  - intros s ->. inversion Hp; subst; try discriminate. now apply Hps.
  - clear H Hs. induction F as [|a b l m Hab _ IHF]; constructor; inversion IH; inversion Hl; subst; auto.
  - clear H Hs. induction F as [|a b l m [E Hab] _ IHF]; [constructor|]. inversion Hl as [|? ? [Ha Hb] Hc]; inversion IH; subst. constructor; auto.
    destruct a, b; cbn [fst snd] in *; subst; auto.
Qed.
Lemma spelled_equiv P v w : jequiv v w -> spelled P v -> spelled P w.
Proof.
  revert w. induction v as [p|l IH|l IH] using json_ind'; intros n H Hs; inversion H as [|? m F|? l' m Pm F]; subst; inversion Hs as [? Hps|? Hl|? Hl]; subst; [exact Hs| |]; constructor.
  - clear H Hs. induction F as [|a b l m Hab _ IHF]; constructor; inversion IH; inversion Hl; subst; auto.
  - assert (IH' : Forall (fun kv => forall w, jequiv (snd kv) w -> spelled P (snd kv) -> spelled P w) l') by (eapply Permutation_Forall; eauto).
    assert (Hl' : Forall (fun kv => Forall P (fst kv) /\ spelled P (snd kv)) l') by (eapply Permutation_Forall; eauto).
    clear - F IH' Hl'. induction F as [|a b l m [E Hab] _ IHF]; [constructor|]. inversion Hl' as [|? ? [Ha Hb] Hc]; inversion IH'; subst. constructor; auto.
    destruct a, b; cbn [fst snd] in *; subst; auto.
Qed.

(** * JSON texts *)

Section Texts.
Variable P : char -> Prop.
Hypothesis ascii : forall c, (c < 128)%N -> P c.
Ltac letter := apply ascii; first [lia | reflexivity].

Inductive tspelled : jtree -> Prop :=
| ts_null : tspelled TNull
| ts_bool b : tspelled (TBool b)
| ts_num n : tspelled (TNum n)
| ts_str s : Forall P s -> tspelled (TStr s)
| ts_arr l : Forall tspelled l -> tspelled (TArr l)
| ts_obj l : Forall (fun kv => Forall P (fst kv) /\ tspelled (snd kv)) l -> tspelled (TObj l).

Lemma map_option_forall2 {A B} (f : A -> option B) l m : map_option f l = Some m -> Forall2 (fun a b => f a = Some b) l m.
Proof.
  revert m. induction l as [|a l IH]; intros m H; cbn [map_option] in H; [injection H as <-; constructor|].
  destruct (f a) eqn:E; [|discriminate]. fold (map_option f l) in H. destruct (map_option f l) eqn:El; [|discriminate].
  injection H as <-. constructor; auto.
Qed.
(** The strings of a tree and of its value. *)
Lemma value_spelled rd : forall t v, value_with rd t = Some v -> (tspelled t <-> spelled P v).
Proof.
  fix IH 1. intros t v H. destruct t as [|b|n|s|l|l]; cbn [value_with] in H.
  - injection H as <-. split; intros _; constructor. discriminate.
  - injection H as <-. split; intros _; constructor. discriminate.
  - destruct (rd n); [|discriminate]. injection H as <-. split; intros _; constructor. discriminate.
  - injection H as <-. split; intros Hs; inversion Hs; subst; constructor; auto. intros s' E. now injection E as <-.
  - destruct (map_option _ l) as [m|] eqn:E; [|discriminate]. injection H as <-. apply map_option_forall2 in E.
    assert (K : Forall tspelled l <-> Forall (spelled P) m).
    { revert m E. induction l as [|x l IHl]; intros m E; inversion E as [|? y ? m' E1 E2]; subst; [split; constructor|].
      specialize (IHl m' E2). pose proof (IH x y E1) as K. split; intros F; inversion F; subst; constructor; tauto. }
    split; intros Hs; inversion Hs; subst; constructor; tauto.
  - destruct (map_option _ l) as [m|] eqn:E; [|discriminate]. injection H as <-. apply map_option_forall2 in E.
    assert (K : Forall (fun kv => Forall P (fst kv) /\ tspelled (snd kv)) l <-> Forall (fun kv => Forall P (fst kv) /\ spelled P (snd kv)) m).
    { revert m E. induction l as [|[k x] l IHl]; intros m E; inversion E as [|? y ? m' E1 E2]; subst; [split; constructor|].
      specialize (IHl m' E2). cbn [fst snd] in E1. destruct (value_with rd x) as [w|] eqn:Ew; [|discriminate]. injection E1 as <-.
      pose proof (IH x w Ew) as K. split; intros F; inversion F; subst; constructor; cbn [fst snd] in *; tauto. }
    split; intros Hs; inversion Hs; subst; constructor; tauto.
Qed.

Lemma ws_ok w : ws w -> Forall P w.
Proof.
  apply Forall_impl. intros c H. unfold json_ws in H. repeat rewrite orb_true_iff in H. repeat rewrite N.eqb_eq in H. letter.
Qed.
(** The texts of numbers. *)
Lemma number_char_ok c : number_char c = true -> P c.
Proof.
  unfold number_char, is_digit. intros H. repeat rewrite orb_true_iff in H. repeat rewrite N.eqb_eq in H.
  rewrite andb_true_iff, N.leb_le, N.leb_le in H. letter.
Qed.
Lemma numeral_ok n : json_numeral n = true -> Forall P n.
Proof.
  intros H. apply numeral_chars' in H as [H _]. eapply Forall_impl; [|exact H]. exact number_char_ok.
Qed.
Lemma hex_ok c x : hex_val c = Some x -> P c.
Proof.
  unfold hex_val, is_digit. destruct (N.leb_spec 48 c), (N.leb_spec c 57), (N.leb_spec 97 c), (N.leb_spec c 102), (N.leb_spec 65 c), (N.leb_spec c 70);
    cbn [andb]; try discriminate; intros _; letter.
Qed.
Lemma hex4_ok a b c d x : hex_val4 a b c d = Some x -> P a /\ P b /\ P c /\ P d.
Proof.
  unfold hex_val4. destruct (hex_val a) eqn:Ea; [|discriminate]. destruct (hex_val b) eqn:Eb; [|discriminate].
  destruct (hex_val c) eqn:Ec; [|discriminate]. destruct (hex_val d) eqn:Ed; [|discriminate]. apply hex_ok in Ea, Eb, Ec, Ed. auto.
Qed.
Lemma simple_ok e x : simple_escape e = Some x -> P e.
Proof.
  unfold simple_escape. destruct (N.eqb_spec e cDQ); [intros _; letter|]. destruct (N.eqb_spec e cBSLASH); [intros _; letter|].
  destruct (N.eqb_spec e 47); [intros _; letter|]. cbn [orb]. destruct (N.eqb_spec e 98); [intros _; letter|]. destruct (N.eqb_spec e 102); [intros _; letter|].
  destruct (N.eqb_spec e cLN); [intros _; letter|]. destruct (N.eqb_spec e cLR); [intros _; letter|]. destruct (N.eqb_spec e cLT); [intros _; letter|]. discriminate.
Qed.
(** The text of a string, from the string. *)
Lemma gstring_ok b s : gstring b s -> Forall P s -> Forall P b.
Proof.
  induction 1 as [|c b s _ _ _ _ IH|e x b s He _ IH|h1 h2 h3 h4 u b s Hu _ _ _ IH|h1 h2 h3 h4 l1 l2 l3 l4 u v b s Hu _ Hv _ _ IH]; intros H.
  - constructor; [letter|constructor].
  - inversion H; subst. constructor; auto.
  - inversion H; subst. apply simple_ok in He. constructor; [letter|]. constructor; auto.
  - inversion H; subst. apply hex4_ok in Hu as (? & ? & ? & ?). constructor; [letter|]. constructor; [letter|]. repeat (constructor; [assumption|]). auto.
  - inversion H; subst. apply hex4_ok in Hu as (? & ? & ? & ?). apply hex4_ok in Hv as (? & ? & ? & ?).
    constructor; [letter|]. constructor; [letter|]. do 4 (constructor; [assumption|]). constructor; [letter|]. constructor; [letter|].
    repeat (constructor; [assumption|]). auto.
Qed.
Ltac parts := repeat (first [apply Forall_app; split | constructor; [letter|]]); try (apply ws_ok; assumption); try (constructor; fail).
Lemma grammar_ok :
  (forall b t, gvalue b t -> tspelled t -> Forall P b) /\
  (forall b l, gitems b l -> Forall tspelled l -> Forall P b) /\
  (forall b l, gmembers b l -> Forall (fun kv => Forall P (fst kv) /\ tspelled (snd kv)) l -> Forall P b).
Proof.
  apply grammar_ind.
  - intros _. parts.
  - intros _. parts.
  - intros _. parts.
  - intros n Hn _. now apply numeral_ok.
  - intros b s Hg H. inversion H; subst. constructor; [letter|]. eapply gstring_ok; eauto.
  - intros w Hw _. parts.
  - intros b l _ IH H. inversion H; subst. parts; auto.
  - intros w Hw _. parts.
  - intros b l _ IH H. inversion H; subst. parts; auto.
  - intros w1 b w2 t H1 _ IH H2 H. inversion H; subst. parts; auto.
  - intros w1 b w2 t r l H1 _ IH H2 _ IHl H. inversion H; subst. parts; auto.
  - intros w1 k s w2 w3 b w4 t H1 Hk H2 H3 _ IH H4 H. inversion H as [|? ? [Ha Hb] Hc]; subst. pose proof (gstring_ok _ _ Hk Ha). parts; auto.
  - intros w1 k s w2 w3 b w4 t r l H1 Hk H2 H3 _ IH H4 _ IHl H. inversion H as [|? ? [Ha Hb] Hc]; subst. pose proof (gstring_ok _ _ Hk Ha). parts; auto.
Qed.
Lemma json_text_ok b t : json_document b t -> tspelled t -> Forall P b.
Proof.
  intros (w1 & x & w2 & -> & H1 & Hx & H2) Ht. apply Forall_app. split; [now apply ws_ok|]. apply Forall_app. split; [|now apply ws_ok].
  now apply (proj1 grammar_ok x t).
Qed.
End Texts.

(** The strings of a text made of scalar values are made of scalar values. *)
Lemma hex_small c x : hex_val c = Some x -> (x < 16)%N.
Proof.
  unfold hex_val, is_digit. destruct (N.leb_spec 48 c), (N.leb_spec c 57), (N.leb_spec 97 c), (N.leb_spec c 102), (N.leb_spec 65 c), (N.leb_spec c 70);
    cbn [andb]; try discriminate; intros H'; injection H' as <-; lia.
Qed.
Lemma hex4_small a b c d x : hex_val4 a b c d = Some x -> (x < 65536)%N.
Proof.
  unfold hex_val4. destruct (hex_val a) eqn:Ea; [|discriminate]. destruct (hex_val b) eqn:Eb; [|discriminate].
  destruct (hex_val c) eqn:Ec; [|discriminate]. destruct (hex_val d) eqn:Ed; [|discriminate].
  apply hex_small in Ea, Eb, Ec, Ed. intros H. injection H as <-. lia.
Qed.
Lemma gstring_scalars b s : gstring b s -> Forall scalar b -> Forall scalar s.
Proof.
  induction 1 as [|c b s _ _ _ _ IH|e x b s He _ IH|h1 h2 h3 h4 u b s Hu Hl Hh _ IH|h1 h2 h3 h4 l1 l2 l3 l4 u v b s Hu Hh Hv Hl _ IH]; intros H.
  - constructor.
  - inversion H; subst. constructor; auto.
  - inversion H as [|? ? _ H']; subst. inversion H' as [|? ? He' H'']; subst. constructor; [|auto]. unfold simple_escape in He.
    repeat match type of He with (if ?b then _ else _) = _ => destruct b; [injection He as <-; first [exact He' | unfold scalar; lia]|] end. discriminate.
  - do 6 (inversion H as [|? ? _ H']; subst; clear H; rename H' into H). constructor; [|auto]. apply hex4_small in Hu. unfold low_surrogate, high_surrogate in *.
    destruct (N.leb_spec 56320 u), (N.leb_spec u 57343), (N.leb_spec 55296 u), (N.leb_spec u 56319); try discriminate; unfold scalar; lia.
  - do 12 (inversion H as [|? ? _ H']; subst; clear H; rename H' into H). constructor; [|auto]. unfold low_surrogate, high_surrogate in *.
    destruct (N.leb_spec 56320 v), (N.leb_spec v 57343), (N.leb_spec 55296 u), (N.leb_spec u 56319); try discriminate; unfold scalar; lia.
Qed.
Lemma grammar_scalars :
  (forall b t, gvalue b t -> Forall scalar b -> tspelled scalar t) /\
  (forall b l, gitems b l -> Forall scalar b -> Forall (tspelled scalar) l) /\
  (forall b l, gmembers b l -> Forall scalar b -> Forall (fun kv => Forall scalar (fst kv) /\ tspelled scalar (snd kv)) l).
Proof.
  apply grammar_ind; try (intros; constructor; fail).
  - intros b s Hg H. inversion H; subst. constructor. eapply gstring_scalars; eauto.
  - intros w _ _. constructor. constructor.
  - intros b l _ IH H. inversion H as [|? ? _ H']; subst. apply Forall_app in H' as [H' _]. constructor; auto.
  - intros w _ _. constructor. constructor.
  - intros b l _ IH H. inversion H as [|? ? _ H']; subst. apply Forall_app in H' as [H' _]. constructor; auto.
  - intros w1 b w2 t _ _ IH _ H. apply Forall_app in H as [_ H]. apply Forall_app in H as [H _]. constructor; auto.
  - intros w1 b w2 t r l _ _ IH _ _ IHl H. apply Forall_app in H as [_ H]. apply Forall_app in H as [H1 H].
    apply Forall_app in H as [_ H]. inversion H; subst. constructor; auto.
  - intros w1 k s w2 w3 b w4 t _ Hk _ _ _ IH _ H. apply Forall_app in H as [_ H]. inversion H as [|? ? _ H']; subst.
    apply Forall_app in H' as [H1 H']. apply Forall_app in H' as [_ H']. inversion H' as [|? ? _ H2]; subst.
    apply Forall_app in H2 as [_ H2]. apply Forall_app in H2 as [H2 _]. constructor; [|constructor]. split; [eapply gstring_scalars; eauto|auto].
  - intros w1 k s w2 w3 b w4 t r l _ Hk _ _ _ IH _ _ IHl H. apply Forall_app in H as [_ H]. inversion H as [|? ? _ H']; subst.
    apply Forall_app in H' as [H1 H']. apply Forall_app in H' as [_ H']. inversion H' as [|? ? _ H2]; subst.
    apply Forall_app in H2 as [_ H2]. apply Forall_app in H2 as [H2 H3]. apply Forall_app in H3 as [_ H3]. inversion H3; subst.
    constructor; [|auto]. split; [eapply gstring_scalars; eauto|auto].
Qed.
Lemma json_strings_scalars b t : json_document b t -> Forall scalar b -> tspelled scalar t.
Proof.
  intros (w1 & x & w2 & -> & _ & Hx & _) H. apply Forall_app in H as [_ H]. apply Forall_app in H as [H _].
  now apply (proj1 grammar_scalars x t).
Qed.
