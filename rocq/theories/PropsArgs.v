(** C59: the command line arguments, and with them the whole tool. *)
From Coq Require Import Permutation.
From Verif Require Import Chars Floats Json JsonText SpecJson Spec Shared Folding Utf8 Cli SpecCli CliProof PropsJson PropsCli PropsSay ArgsParse SpecArgs ArgsProof ParseProof NumProof Lex.

Local Open Scope nat_scope.

Lemma means_perm ss ss' a : Permutation ss ss' -> means ss a -> means ss' a.
Proof.
  intros Hp [[M0 M0'] M1 M2 M3 M4 M5 M6 M7 M8 M9 M10 M11 M12].
  assert (I : forall x, In x ss <-> In x ss') by (intros x; split; apply Permutation_in; [|symmetry]; assumption).
  assert (C : forall A n (named : str -> A -> Prop) d x, chosen ss n named d x -> chosen ss' n named d x).
  { intros A n named d x [(v & Hi & Hv)|[Hno ->]]; [left; exists v; rewrite <- I; auto|right; split; [|reflexivity]]. intros v Hi. apply (Hno v). now apply I. }
  constructor; auto; try (intros; now rewrite <- I).
  - split; [apply (Permutation_NoDup (l := map called ss)); [now apply Permutation_map|assumption]|]. apply Forall_forall. intros x Hx. apply I in Hx. rewrite Forall_forall in M0'. auto.
  - now rewrite <- !I.
Qed.

(** The answer for arguments of each sort. *)
Lemma parse_go argv : parse_args argv = pbind (go [] argv) (fun f => if (present IEncode f && present IDecode f)%bool then Stop WrongUsage else Go (from_matches f)).
Proof. reflexivity. Qed.
Lemma parse_says argv ss : says argv ss ->
  (exists a, means ss a /\ parse_args argv = Go a) \/ ((forall a, ~ means ss a) /\ parse_args argv = Stop WrongUsage).
Proof.
  intros H. pose proof (says_named _ _ H) as Hw. rewrite parse_go, (go_says _ _ [] H).
  destruct (store_all_start ss Hw) as [[Hp ->]|[Hp ->]]; cbn [pbind].
  - pose proof (present_flag (lit "encode") ss ltac:(cbn; tauto) Hw) as Fe. change (fst (conv (Flag (lit "encode")))) with IEncode in Fe.
    pose proof (present_flag (lit "decode") ss ltac:(cbn; tauto) Hw) as Fd. change (fst (conv (Flag (lit "decode")))) with IDecode in Fd.
    destruct (present IEncode (map conv ss) && present IDecode (map conv ss))%bool eqn:E.
    + right. split; [|reflexivity]. intros a M. apply Bool.andb_true_iff in E as [E1 E2]. apply (mn_one_way _ _ M). tauto.
    + left. eexists. split; [now apply means_from|reflexivity].
  - right. split; [|reflexivity]. intros a M. apply Hp, (mn_proper _ _ M).
Qed.
Lemma parse_shows pre ss a l s r name letter k : In (name, letter, k) kinds -> spells pre ss -> letters l s -> shows_at name letter a l ->
  (proper (ss ++ s) /\ parse_args (pre ++ a :: r) = Stop k) \/ (~ proper (ss ++ s) /\ parse_args (pre ++ a :: r) = Stop WrongUsage).
Proof.
  intros Hk Hp Hl Ha. rewrite parse_go, (go_shows pre ss a l s r name letter k [] Hk Hp Hl Ha).
  assert (Hw : Forall well_named (ss ++ s)) by (apply Forall_app; split; [now apply spells_named in Hp|now apply letters_named in Hl]).
  destruct (store_all_start _ Hw) as [[Hpr ->]|[Hpr ->]]; cbn [pbind]; auto.
Qed.
Lemma parse_stuck pre ss rest : spells pre ss -> stuck rest -> parse_args (pre ++ rest) = Stop WrongUsage.
Proof.
  intros Hp Hs. rewrite parse_go, (go_spells _ _ Hp). destruct (store_all ss []) as [f|x] eqn:E; cbn [pbind]; [now rewrite Hs|].
  apply store_all_stop in E; [now subst|]. now apply spells_named in Hp.
Qed.
Lemma asks_parse name letter k argv : In (name, letter, k) kinds -> asks name letter argv -> parse_args argv = Stop k.
Proof.
  intros Hk (pre & ss & a & l & s & r & -> & Hp & Hl & Hpr & Ha). destruct (parse_shows pre ss a l s r name letter k Hk Hp Hl Ha) as [[_ E]|[N _]]; [exact E|now elim N].
Qed.
Lemma parse_asks name letter k argv : In (name, letter, k) kinds -> parse_args argv = Stop k -> asks name letter argv.
Proof.
  intros Hk E. assert (Hne : k <> WrongUsage) by (cbn [kinds In] in Hk; destruct Hk as [K|[K|[]]]; injection K as _ _ <-; discriminate).
  destruct (every_sort (length argv) argv (le_n _)) as [ss H|pre ss a l s r name' letter' k' Hk' -> Hp Hl Ha|pre ss rest -> Hp Hs].
  - destruct (parse_says _ _ H) as [(a & _ & E')|[_ E']]; congruence.
  - destruct (parse_shows pre ss a l s r name' letter' k' Hk' Hp Hl Ha) as [[Hpr E']|[_ E']]; [|congruence].
    assert (k = k') as <- by congruence.
    assert (name' = name /\ letter' = letter) as [-> ->].
    { cbn [kinds In] in Hk, Hk'. destruct Hk as [K|[K|[]]], Hk' as [K'|[K'|[]]]; inversion K; subst k; inversion K'; auto. }
    exists pre, ss, a, l, s, r. auto 6.
  - rewrite (parse_stuck _ _ _ Hp Hs) in E. congruence.
Qed.

(** The arguments are accepted exactly when they are spelled as documented, nothing is said twice,
    every value is good and not both directions are asked for; then the tool works with what they
    mean. *)
Theorem C59_accepts : forall (argv : list str) (a : args), parse_args argv = Go a <-> exists ss, says argv ss /\ means ss a.
Proof.
  intros argv a. split.
  - intros E. destruct (every_sort (length argv) argv (le_n _)) as [ss H|pre ss b l s r name letter k Hk -> Hp Hl Ha|pre ss rest -> Hp Hs].
    + destruct (parse_says _ _ H) as [(b & M & E')|[_ E']]; [|congruence]. exists ss. split; [exact H|]. congruence.
    + destruct (parse_shows pre ss b l s r name letter k Hk Hp Hl Ha) as [[_ E']|[_ E']]; congruence.
    + rewrite (parse_stuck _ _ _ Hp Hs) in E. discriminate E.
  - intros (ss & H & M). destruct (parse_says _ _ H) as [(b & Mb & E)|[No _]]; [|now elim (No a)]. rewrite E. f_equal.
    pose proof (says_named _ _ H) as Hw.
    assert (Hc : (present IEncode (map conv ss) && present IDecode (map conv ss))%bool = false).
    { pose proof (present_flag (lit "encode") ss ltac:(cbn; tauto) Hw) as Fe. change (fst (conv (Flag (lit "encode")))) with IEncode in Fe.
      pose proof (present_flag (lit "decode") ss ltac:(cbn; tauto) Hw) as Fd. change (fst (conv (Flag (lit "decode")))) with IDecode in Fd.
      destruct (present IEncode _), (present IDecode _); try reflexivity. exfalso. apply (mn_one_way _ _ M). tauto. }
    pose proof (mn_proper _ _ M) as Hpr. apply (means_from ss _ Hw Hpr Hc) in M. apply (means_from ss _ Hw Hpr Hc) in Mb. congruence.
Qed.
(** Help and version are shown exactly when asked for before anything wrong. *)
Theorem C59_help : forall argv : list str, parse_args argv = Stop ShowHelp <-> asks (lit "help") 104%N argv.
Proof. split; [apply parse_asks|apply asks_parse]; cbn; auto. Qed.
Theorem C59_version : forall argv : list str, parse_args argv = Stop ShowVersion <-> asks (lit "version") 86%N argv.
Proof. split; [apply parse_asks|apply asks_parse]; cbn; auto. Qed.
(** Everything else is wrong usage. *)
Theorem C59_usage : forall argv : list str,
  parse_args argv = Stop WrongUsage <->
  (forall ss a, says argv ss -> ~ means ss a) /\ ~ asks (lit "help") 104%N argv /\ ~ asks (lit "version") 86%N argv.
Proof.
  intros argv. rewrite <- C59_help, <- C59_version. split.
  - intros E. split; [|split; congruence]. intros ss a H M. assert (X : parse_args argv = Go a) by (apply C59_accepts; eauto). congruence.
  - intros (H & Hh & Hv). destruct (parse_args argv) as [a|[]] eqn:E; try congruence. exfalso. apply C59_accepts in E as (ss & Hs & M). now apply (H ss a).
Qed.
(** The order of the settings and the way they are spelled do not matter. *)
Theorem C59_order : forall (argv argv' : list str) (ss ss' : list setting) (a : args),
  says argv ss -> says argv' ss' -> Permutation ss ss' -> parse_args argv = Go a -> parse_args argv' = Go a.
Proof.
  intros argv argv' ss ss' a H H' Hp E. destruct (parse_says _ _ H) as [(b & M & E')|[_ E']]; [|congruence]. assert (a = b) as -> by congruence.
  apply C59_accepts. exists ss'. split; [exact H'|]. eapply means_perm; eauto.
Qed.
(** There is one way to read good arguments. *)
Lemma conv_inj s t : well_named s -> well_named t -> conv s = conv t -> s = t.
Proof.
  intros Hs Ht E. assert (C : called s = called t).
  { apply (conv_called s t Hs Ht). rewrite E. destruct (fst (conv t)); reflexivity. }
  destruct s as [p|m|m v], t as [q|n|n w]; cbn [called well_named] in *.
  - cbn in E. injection E as ->. reflexivity.
  - subst n. cbn in Ht. intuition discriminate.
  - subst n. cbn in Ht. intuition discriminate.
  - subst m. cbn in Hs. intuition discriminate.
  - now subst.
  - subst m. exfalso. cbn in Hs, Ht. repeat (destruct Hs as [Hs|Hs]; [subst n; intuition discriminate|]). contradiction Hs.
  - subst m. cbn in Hs. intuition discriminate.
  - subst m. exfalso. cbn in Hs, Ht. repeat (destruct Ht as [Ht|Ht]; [subst n; intuition discriminate|]). contradiction Ht.
  - subst n. cbn in E. injection E as ->. reflexivity.
Qed.
Theorem C59_one_reading : forall (argv : list str) (ss ss' : list setting), says argv ss -> says argv ss' -> proper ss -> ss = ss'.
Proof.
  intros argv ss ss' H H' Hp. pose proof (says_named _ _ H) as Hw. pose proof (says_named _ _ H') as Hw'.
  pose proof (eq_trans (eq_sym (go_says _ _ [] H)) (go_says _ _ [] H')) as E.
  destruct (store_all_start ss Hw) as [[_ E1]|[N _]]; [|now elim N]. rewrite E1 in E.
  destruct (store_all_start ss' Hw') as [[_ E2]|[_ E2]]; rewrite E2 in E; [|discriminate E]. injection E as E. clear - E Hw Hw'.
  revert ss' Hw' E. induction Hw as [|s ss Hs Hw IH]; intros [|s' ss'] Hw' E; try discriminate E; [reflexivity|]. cbn [map] in E.
  inversion Hw' as [|? ? Hs' Hw2]; subst. injection E as E1 E2. f_equal; [now apply conv_inj|now apply IH].
Qed.

(** Every sane choice can be made. *)
Definition flags_of (a : args) : list str :=
  (if a_encode a then [lit "encode"] else []) ++ (if a_decode a then [lit "decode"] else []) ++
  (if a_no_strict a then [lit "no-strict"] else []) ++ (if a_stats a then [lit "stats"] else []).
Definition values_of (a : args) : list (str * str) :=
  [(lit "delimiter", [a_delimiter a]); (lit "indent", dec_of_N (N.of_nat (a_indent a)));
   (lit "key-folding", match a_key_folding a with KFOff => lit "off" | KFSafe => lit "safe" end);
   (lit "expand-paths", match a_expand_paths a with EPOff => lit "off" | EPSafe => lit "safe" end)] ++
  (match a_flatten_depth a with Some n => [(lit "flatten-depth", dec_of_N n)] | None => [] end) ++
  (match a_output a with Some p => [(lit "output", p)] | None => [] end).
Definition inputs_of (a : args) : list str := match a_input a with Some p => [p] | None => [] end.
Definition argv_of (a : args) : list str :=
  (map (fun n => lit "--" ++ n) (flags_of a) ++ map (fun nv => lit "--" ++ fst nv ++ lit "=" ++ snd nv) (values_of a)) ++ lit "--" :: inputs_of a.
Definition settings_of (a : args) : list setting :=
  (map Flag (flags_of a) ++ map (fun nv => Value (fst nv) (snd nv)) (values_of a)) ++ map Input (inputs_of a).
Lemma argv_of_says a : says (argv_of a) (settings_of a).
Proof.
  apply sy_rest.
  assert (V : forall vs, (forall nv, In nv vs -> In (fst nv) option_names) ->
    spells (map (fun nv => lit "--" ++ fst nv ++ lit "=" ++ snd nv) vs) (map (fun nv => Value (fst nv) (snd nv)) vs)).
  { induction vs as [|nv vs IH]; intros H; cbn [map]; [constructor|]. apply sp_equals; [apply H; now left|]. apply IH. intros x Hx. apply H. now right. }
  assert (F : forall fs argv ss, (forall n, In n fs -> In n flag_names) -> spells argv ss -> spells (map (fun n => lit "--" ++ n) fs ++ argv) (map Flag fs ++ ss)).
  { induction fs as [|n fs IH]; intros argv ss H Hs; cbn [map app]; [exact Hs|]. apply sp_flag; [apply H; now left|]. apply IH; [|exact Hs]. intros x Hx. apply H. now right. }
  apply F; [|apply V].
  - unfold flags_of. intros n H. destruct (a_encode a), (a_decode a), (a_no_strict a), (a_stats a); cbn [app In] in H; cbn [flag_names In]; tauto.
  - unfold values_of. intros nv H. destruct (a_flatten_depth a), (a_output a); cbn [app In] in H; intuition (subst; cbn [fst option_names In]; tauto).
Qed.
Lemma numeral_dec n signs : In [] signs -> numeral signs (dec_of_N n) n.
Proof.
  intros Hi. exists [], (dec_of_N n). destruct (dec_of_N_spec n) as (D1 & D2 & _). repeat split; auto using dec_of_N_nonempty.
  eapply Forall_impl; [|exact D1]. intros c Hc. unfold is_digit in Hc. lia.
Qed.
Lemma chosen_in {A} ss n (named : str -> A -> Prop) d x v : In (Value n v) ss -> named v x -> chosen ss n named d x.
Proof. intros H1 H2. left. eauto. Qed.
Fixpoint nodupb (l : list str) : bool := match l with [] => true | x :: r => negb (existsb (str_eqb x) r) && nodupb r end.
Lemma nodupb_spec l : nodupb l = true -> NoDup l.
Proof.
  induction l as [|x l IH]; cbn [nodupb]; [constructor|]. intros H. apply Bool.andb_true_iff in H as [H1 H2]. constructor; [|auto].
  intros Hi. apply Bool.negb_true_iff in H1. assert (E : existsb (str_eqb x) l = true) by (apply existsb_exists; exists x; split; [exact Hi|apply str_eqb_refl]). congruence.
Qed.
Lemma settings_of_means a : sane a -> means (settings_of a) a.
Proof.
  intros (S1 & S2 & S3 & S4 & S5 & S6).
  assert (Hd : delimiter_named [a_delimiter a] (a_delimiter a)) by (destruct S4 as [->|[->| ->]]; cbn; tauto).
  assert (Hi : indent_named (dec_of_N (N.of_nat (a_indent a))) (a_indent a)).
  { left. exists (N.of_nat (a_indent a)). split; [apply numeral_dec; cbn; tauto|]. split; lia. }
  assert (Hk : folding_named (match a_key_folding a with KFOff => lit "off" | KFSafe => lit "safe" end) (a_key_folding a)) by (destruct (a_key_folding a); cbn; tauto).
  assert (He : expand_named (match a_expand_paths a with EPOff => lit "off" | EPSafe => lit "safe" end) (a_expand_paths a)) by (destruct (a_expand_paths a); cbn; tauto).
  assert (Hf : forall n, a_flatten_depth a = Some n -> depth_named (dec_of_N n) n) by (intros n E; split; [apply numeral_dec; cbn; tauto|auto]).
  assert (I1 : forall p, In (Input p) (settings_of a) <-> a_input a = Some p).
  { intros p. unfold settings_of. rewrite !in_app_iff, !in_map_iff. split.
    - intros [[(x & E & _)|(x & E & _)]|(x & E & H)]; try discriminate E. injection E as ->. unfold inputs_of in H. destruct (a_input a); cbn [In] in H; [destruct H as [->|[]]; reflexivity|contradiction H].
    - intros E. right. exists p. split; [reflexivity|]. unfold inputs_of. rewrite E. now left. }
  assert (I2 : forall n, In (Flag n) (settings_of a) <-> In n (flags_of a)).
  { intros n. unfold settings_of. rewrite !in_app_iff, !in_map_iff. split.
    - intros [[(x & E & H)|(x & E & _)]|(x & E & H)]; try discriminate E. injection E as ->. exact H.
    - intros H. left. left. exists n. auto. }
  assert (I3 : forall n v, In (Value n v) (settings_of a) <-> In (n, v) (values_of a)).
  { intros n v. unfold settings_of. rewrite !in_app_iff, !in_map_iff. split.
    - intros [[(x & E & H)|([n' v'] & E & H)]|(x & E & H)]; try discriminate E. injection E as -> ->. exact H.
    - intros H. left. right. exists (n, v). auto. }
  constructor.
  - split.
    + apply nodupb_spec. unfold settings_of, flags_of, values_of, inputs_of. rewrite !map_app.
      destruct (a_encode a), (a_decode a), (a_no_strict a), (a_stats a), (a_flatten_depth a), (a_output a), (a_input a); reflexivity.
    + unfold settings_of. rewrite !Forall_app, !Forall_map. repeat split.
      * apply Forall_forall. intros; constructor.
      * unfold values_of. apply Forall_app. split; [repeat apply Forall_cons; cbn [fst snd]; [econstructor; eauto..|constructor]|]. apply Forall_app. split.
        -- destruct (a_flatten_depth a) as [n|]; constructor; [|constructor]. cbn [fst snd]. eapply gd_depth. eauto.
        -- destruct (a_output a) as [p|]; constructor; [|constructor]. cbn [fst snd]. apply gd_output. intros ->. now apply S2.
      * unfold inputs_of. destruct (a_input a) as [p|]; constructor; [|constructor]. apply gd_input. intros ->. now apply S1.
  - rewrite !I2. unfold flags_of. intros [H1 H2]. apply S3. rewrite !in_app_iff in *.
    destruct (a_encode a), (a_decode a), (a_no_strict a), (a_stats a); cbn [In] in *; intuition discriminate.
  - intros p. now rewrite I1.
  - intros p. rewrite I3. unfold values_of. rewrite !in_app_iff. split; [intros ->; right; right; now left|].
    intros [H|[H|H]].
    + cbn [In] in H. intuition discriminate.
    + destruct (a_flatten_depth a); cbn [In] in H; intuition discriminate.
    + destruct (a_output a); cbn [In] in H; [|contradiction H]. destruct H as [E|[]]. injection E as ->. reflexivity.
  - rewrite I2. unfold flags_of. rewrite !in_app_iff. destruct (a_encode a), (a_decode a), (a_no_strict a), (a_stats a); cbn [In] in *; intuition (discriminate || congruence).
  - rewrite I2. unfold flags_of. rewrite !in_app_iff. destruct (a_encode a), (a_decode a), (a_no_strict a), (a_stats a); cbn [In] in *; intuition (discriminate || congruence).
  - eapply chosen_in; [apply I3|exact Hd]. unfold values_of. cbn [app In]. tauto.
  - eapply chosen_in; [apply I3|exact Hi]. unfold values_of. cbn [app In]. tauto.
  - rewrite I2. unfold flags_of. rewrite !in_app_iff. destruct (a_encode a), (a_decode a), (a_no_strict a), (a_stats a); cbn [In] in *; intuition (discriminate || congruence).
  - eapply chosen_in; [apply I3|exact Hk]. unfold values_of. cbn [app In]. tauto.
  - destruct (a_flatten_depth a) as [n|] eqn:E.
    + eapply chosen_in; [apply I3|exists n; split; [now apply Hf|reflexivity]]. unfold values_of. rewrite E. cbn [app In]. tauto.
    + right. split; [|reflexivity]. intros v H. apply I3 in H. unfold values_of in H. rewrite E in H. destruct (a_output a); cbn [app In] in H; intuition discriminate.
  - eapply chosen_in; [apply I3|exact He]. unfold values_of. cbn [app In]. tauto.
  - rewrite I2. unfold flags_of. rewrite !in_app_iff. destruct (a_encode a), (a_decode a), (a_no_strict a), (a_stats a); cbn [In] in *; intuition (discriminate || congruence).
Qed.
Lemma means_sane ss a : means ss a -> sane a.
Proof.
  intros [[_ G] M1 M2 M3 M4 M5 M6 M7 M8 M9 M10 M11 M12]. rewrite Forall_forall in G. repeat split.
  - intros E. apply M2 in E. apply G in E. inversion E as [? H| | | | | | |]. now apply H.
  - intros E. apply M3 in E. apply G in E. inversion E as [| |? H| | | | |]. now apply H.
  - intros [E1 E2]. apply M1. tauto.
  - destruct M6 as [(v & _ & H)|[_ ->]]; [|now left]. unfold delimiter_named in H. cbn [In] in H. unfold std_delim. intuition congruence.
  - destruct M7 as [(v & _ & [(m & _ & H & ->)|[_ ->]])|[_ ->]]; lia.
  - intros n E. destruct M10 as [(v & _ & m & [_ H] & E')|[_ E']]; congruence.
Qed.
Theorem C59_every_setting : forall a : args, (exists argv, parse_args argv = Go a) <-> sane a.
Proof.
  intros a. split.
  - intros [argv E]. apply C59_accepts in E as (ss & _ & M). eapply means_sane; eauto.
  - intros H. exists (argv_of a). apply C59_accepts. exists (settings_of a). split; [apply argv_of_says|now apply settings_of_means].
Qed.

Section Whole.
Variable rf : str -> option f64.
Variable complaint : str -> str.
Variable st : num_style.
Variables file_cap line_cap : nat.
Variables help version : bytes.
Variable usage : list str -> bytes.
Notation tool := (tool rf complaint st file_cap line_cap help version usage).
Notation happens := (happens rf complaint st file_cap).

Lemma show_spec t text status w env x w' env' : show t text status w env = (x, w', env') -> opened t w ->
  exists out, wrote t out w w' /\ prefix out text /\ (x = Some status \/ x = None).
Proof.
  unfold show. intros H Ho. destruct (write_all t text w env) as [[o w1] env1] eqn:E. destruct (write_all_wrote _ _ _ _ _ _ _ E Ho) as (out & Hw & Hp & _).
  exists out. destruct o; injection H as <- <- <-; auto.
Qed.
(** Everything the tool can do: convert as it is told, show a text on standard output, complain on
    standard error.  In the last two cases nothing else changes. *)
Theorem C59_tool :
  forall (argv : list str) (w w' : world) (env env' : list reply) (exit : option N),
    (forall a, fits a w) -> tool argv w env = (exit, w', env') ->
    (exists ss a, says argv ss /\ means ss a /\ happens a w env w' exit) \/
    (exists text out, ((asks (lit "help") 104%N argv /\ text = help) \/ (asks (lit "version") 86%N argv /\ text = version)) /\
       only_stdout w w' out /\ w_stderr w' = w_stderr w /\ prefix out text /\ (exit = Some 0%N \/ exit = None)) \/
    (exists out, ((forall ss a, says argv ss -> ~ means ss a) /\ ~ asks (lit "help") 104%N argv /\ ~ asks (lit "version") 86%N argv) /\
       unchanged w w' /\ w_stderr w' = w_stderr w ++ out /\ prefix out (usage argv) /\ (exit = Some 2%N \/ exit = None)).
Proof.
  intros argv w w' env env' x Hf H. unfold ArgsParse.tool in H. destruct (parse_args argv) as [a|[]] eqn:E.
  - left. apply C59_accepts in E as (ss & Hs & M). exists ss, a. split; [exact Hs|]. split; [exact M|]. eapply C57_everything; eauto.
  - right. left. apply C59_help in E. destruct (show_spec _ _ _ _ _ _ _ _ H I) as (out & (_ & Ho & He) & Hp & Hx). exists help, out. auto 8.
  - right. left. apply C59_version in E. destruct (show_spec _ _ _ _ _ _ _ _ H I) as (out & (_ & Ho & He) & Hp & Hx). exists version, out. auto 8.
  - right. right. apply C59_usage in E. destruct (show_spec _ _ _ _ _ _ _ _ H I) as (out & (_ & Ho & He) & Hp & Hx). exists out. auto 8.
Qed.
(** The exit status tells: 2 for wrong usage and nothing else. *)
Theorem C59_statuses :
  forall (argv : list str) (w w' : world) (env env' : list reply) (n : N),
    (forall a, fits a w) -> tool argv w env = (Some n, w', env') ->
    (n = 0%N \/ n = 1%N \/ n = 2%N \/ n = 134%N) /\
    (n = 2%N <-> (forall ss a, says argv ss -> ~ means ss a) /\ ~ asks (lit "help") 104%N argv /\ ~ asks (lit "version") 86%N argv).
Proof.
  intros argv w w' env env' n Hf H. rewrite <- C59_usage. unfold ArgsParse.tool in H. destruct (parse_args argv) as [a|[]] eqn:E.
  - destruct (C57_statuses _ _ _ _ _ _ _ _ _ _ _ (Hf a) H) as [->|[->|[-> _]]]; (split; [auto|split; discriminate]).
  - destruct (show_spec _ _ _ _ _ _ _ _ H I) as (out & _ & _ & [Hx|Hx]); [injection Hx as ->|discriminate Hx]. split; [auto|split; discriminate].
  - destruct (show_spec _ _ _ _ _ _ _ _ H I) as (out & _ & _ & [Hx|Hx]); [injection Hx as ->|discriminate Hx]. split; [auto|split; discriminate].
  - destruct (show_spec _ _ _ _ _ _ _ _ H I) as (out & _ & _ & [Hx|Hx]); [injection Hx as ->|discriminate Hx]. split; [auto|split; reflexivity].
Qed.
(** If no call fails: help and version are shown in full, wrong usage is reported in full. *)
Theorem C59_shown :
  forall (argv : list str) (w : world) (env : list reply), steady env ->
    (asks (lit "help") 104%N argv -> length help <= length env ->
       exists w' env', tool argv w env = (Some 0%N, w', env') /\ only_stdout w w' help /\ w_stderr w' = w_stderr w) /\
    (asks (lit "version") 86%N argv -> length version <= length env ->
       exists w' env', tool argv w env = (Some 0%N, w', env') /\ only_stdout w w' version /\ w_stderr w' = w_stderr w) /\
    ((forall ss a, says argv ss -> ~ means ss a) -> ~ asks (lit "help") 104%N argv -> ~ asks (lit "version") 86%N argv -> length (usage argv) <= length env ->
       exists w' env', tool argv w env = (Some 2%N, w', env') /\ unchanged w w' /\ w_stderr w' = w_stderr w ++ usage argv).
Proof.
  intros argv w env Hs. split; [|split].
  - intros H Hl. apply C59_help in H. unfold ArgsParse.tool. rewrite H. unfold show.
    destruct (write_all_steady rf complaint TStdout help w env I Hs Hl) as (w1 & env1 & -> & _ & _ & _ & Ho & He). eauto.
  - intros H Hl. apply C59_version in H. unfold ArgsParse.tool. rewrite H. unfold show.
    destruct (write_all_steady rf complaint TStdout version w env I Hs Hl) as (w1 & env1 & -> & _ & _ & _ & Ho & He). eauto.
  - intros H1 H2 H3 Hl. assert (H : parse_args argv = Stop WrongUsage) by (apply C59_usage; auto). unfold ArgsParse.tool. rewrite H. unfold show.
    destruct (write_all_steady rf complaint TStderr (usage argv) w env I Hs Hl) as (w1 & env1 & -> & _ & _ & _ & Ho & He). eauto.
Qed.
End Whole.
Print Assumptions C59_accepts.
Print Assumptions C59_help.
Print Assumptions C59_version.
Print Assumptions C59_usage.
Print Assumptions C59_order.
Print Assumptions C59_one_reading.
Print Assumptions C59_every_setting.
Print Assumptions C59_tool.
Print Assumptions C59_statuses.
Print Assumptions C59_shown.

(** Spellings that are accepted, and what they mean. *)
Example C59_example :
  parse_args [] = Go (Args None None false false cCOMMA 2 false KFOff None EPOff false) /\
  parse_args [lit "-eo=x"; lit "in.json"; lit "--indent=4"; lit "--delimiter"; lit "\t"; lit "--stats"]
    = Go (Args (Some (lit "in.json")) (Some (lit "x")) true false cTAB 4 false KFOff None EPOff true) /\
  parse_args [lit "--flatten-depth"; lit "+7"; lit "-dox"; lit "--key-folding=safe"; lit "--expand-paths"; lit "safe"; lit "--"; lit "-weird"]
    = Go (Args (Some (lit "-weird")) (Some (lit "x")) false true cCOMMA 2 false KFSafe (Some 7%N) EPSafe false) /\
  parse_args [lit "-"; lit "--indent=-0"] = Go (Args (Some (lit "-")) None false false cCOMMA 0 false KFOff None EPOff false) /\
  (* a misspelling; said twice; a bad value; a missing value; two inputs; both directions *)
  Forall (fun argv => parse_args argv = Stop WrongUsage)
    [[lit "--indet"; lit "4"]; [lit "--stats"; lit "--stats"]; [lit "--indent"; lit "17"]; [lit "-o"]; [lit "-o"; lit "-x"]; [lit "a"; lit "b"];
     [lit "-ed"]; [lit "--stats=1"]; [lit "-o="]; [lit "--delimiter=;"]; [lit "--"; lit "--help"; lit "x"]; [lit "--stat"]] /\
  parse_args [lit "-e"; lit "-d"; lit "--help"; lit "--what"] = Stop ShowHelp /\ parse_args [lit "-eVx"] = Stop ShowVersion /\
  parse_args [lit "a"; lit "b"; lit "--help"] = Stop WrongUsage.
Proof.
  do 4 (split; [vm_compute; reflexivity|]). split; [|do 2 (split; [vm_compute; reflexivity|]); vm_compute; reflexivity].
  repeat (apply Forall_cons; [vm_compute; reflexivity|]). apply Forall_nil.
Qed.
(** The hypotheses of the theorems above for one of them. *)
Example C59_example_says :
  exists ss, says [lit "-eo=x"; lit "in.json"; lit "--indent=4"] ss /\ means ss (Args (Some (lit "in.json")) (Some (lit "x")) true false cCOMMA 4 false KFOff None EPOff false).
Proof. apply C59_accepts. vm_compute. reflexivity. Qed.
Example C59_example_order :
  parse_args [lit "--indent"; lit "4"; lit "-ox"; lit "--encode"; lit "--"; lit "in.json"] = parse_args [lit "-eo=x"; lit "in.json"; lit "--indent=4"].
Proof. vm_compute. reflexivity. Qed.
(** The whole tool: from arguments to output. *)
Example C59_example_tool :
  let w := World (fun p => if str_eqb p (lit "in.json") then Some (utf8 (lit "{""a"":[1,2]}")) else None) [] [] [] [] in
  let run := fun argv => let '(x, w', _) := tool no_fractions no_complaint usual_style std_file_cap std_line_cap (utf8 (lit "Help")) (utf8 (lit "toon 1")) (fun _ => utf8 (lit "error")) argv w (repeat (RDone 50) 30) in
                         (x, w_stdout w', w_stderr w') in
  run [lit "in.json"; lit "--delimiter=|"] = (Some 0%N, utf8 (lit "a[2|]: 1|2" ++ [cLF]), []) /\
  run [lit "in.json"; lit "-h"] = (Some 0%N, utf8 (lit "Help"), []) /\
  run [lit "in.json"; lit "--delimiter"] = (Some 2%N, [], utf8 (lit "error")).
Proof. cbv zeta. split; [vm_compute; reflexivity|split; vm_compute; reflexivity]. Qed.
