(** C56: how deeply a decoded value can be nested. *)
From Verif Require Import Chars Floats Json Shared Scanner Parser DecValidation Decoders EventBuilder Expand DecodeApi
  Lex Spec DecProps SpecText SpecRead SpecReplace ReadProof PropsUnread PropsRead.

Local Open Scope nat_scope.

Fixpoint depth (v : tree) : nat :=
  match v with
  | TPrim _ => 0
  | TArr _ l => S (list_max (map depth l))
  | TObj l => S (list_max (map (fun m => depth (snd m)) l))
  end.

(** The nesting of the value, and the two measures of the lines. *)
Lemma tree_ind' (P : tree -> Prop) :
  (forall p, P (TPrim p)) -> (forall n l, Forall P l -> P (TArr n l)) ->
  (forall l, Forall (fun m => P (snd m)) l -> P (TObj l)) -> forall v, P v.
Proof.
  intros Hp Ha Ho. fix IH 1. intros [p|n l|l].
  - apply Hp.
  - apply Ha. induction l; constructor; auto.
  - apply Ho. induction l as [|m l]; constructor; auto.
Qed.
Lemma depth_nesting v : nesting (tree_json v) = depth v.
Proof.
  induction v using tree_ind'; cbn [tree_json nesting depth]; auto; do 2 f_equal; rewrite map_map; apply map_ext_in;
    intros a Ha; rewrite Forall_forall in H; cbn [snd]; auto.
Qed.
Lemma max_below l n : Forall (fun x => x <= n) l -> list_max l <= n.
Proof. intros H. now apply list_max_le. Qed.

Section Nest.
Variable double : str -> option f64.
Variables (strict : bool) (blanks : list nat).

Lemma row_members_flat fs ps : Forall (fun m => depth (snd m) = 0) (row_members fs ps).
Proof. revert ps. induction fs as [|f fs IH]; intros [|p ps]; cbn [row_members]; constructor; cbn; auto. Qed.
Lemma row_depth fs ps : depth (TObj (row_members fs ps)) = 1.
Proof.
  cbn [depth]. f_equal. apply Nat.le_antisymm; [|lia]. apply max_below. apply Forall_map.
  eapply Forall_impl; [|apply row_members_flat]. cbn. intros a ->. auto.
Qed.

(** ** By indentation *)
Section Indented.
Variable deepest : nat.
Definition below (ls : list tline) : Prop := Forall (fun l => tl_depth l <= deepest) ls.
Lemma below_rest ls rest n : uses ls rest n -> below ls -> below rest.
Proof. intros (u & -> & _) H. unfold below in *. rewrite Forall_app in H. tauto. Qed.

Lemma rows_depth dl fs d n ls vs rest : rows double strict dl fs d n ls vs rest -> below ls ->
  Forall (fun v => depth v = 1 /\ d <= deepest) vs.
Proof.
  induction 1 as [ls|n ls E|n l ls ps vs rest D P S R IH]; intros B; constructor.
  - inversion B; subst. split; [apply row_depth|auto].
  - apply IH. now inversion B.
Qed.

Lemma nest_indented :
  (forall d t ls m rest, member double strict blanks d t ls m rest ->
     below ls -> d <= S deepest -> depth (snd m) + d <= deepest + 2) /\
  (forall stop d ls ms rest, members double strict blanks stop d ls ms rest -> below ls ->
     Forall (fun m => depth (snd m) + d <= deepest + 2) ms) /\
  (forall d h tail ls v rest, array double strict blanks d h tail ls v rest -> below ls -> d <= S deepest ->
     depth v + d <= deepest + 2) /\
  (forall d n ls vs rest, items double strict blanks d n ls vs rest -> below ls ->
     Forall (fun v => depth v + d <= deepest + 2) vs) /\
  (forall d t ls v rest, item double strict blanks d t ls v rest -> below ls -> d <= deepest ->
     depth v + d <= deepest + 2).
Proof.
  destruct (read_uses double strict blanks) as (Um & Us & Ua & Ui & Ut).
  apply read_mutind.
  - intros. auto.
  - intros d t ls k q r l ls' ms rest _ _ _ -> Hd _ IH B L. specialize (IH B). cbn [snd depth].
    assert (tl_depth l <= deepest) by now inversion B.
    enough (list_max (map (fun m => depth (snd m)) ms) <= deepest + 2 - tl_depth l) by lia.
    apply max_below, Forall_map. eapply Forall_impl; [|exact IH]. cbn. lia.
  - intros. cbn. lia.
  - intros. cbn. lia.
  - intros. constructor.
  - intros stop d l ls m ls1 ms rest D N M IH1 _ IH2 B. inversion B; subst. constructor; [apply IH1; auto|].
    apply IH2. eapply below_rest; [|eassumption]. eapply Um; eauto.
  - intros d h tail ls t ps _ _ _ _ B L. cbn [depth].
    enough (list_max (map depth (map TPrim ps)) <= 0) by lia. apply max_below. rewrite map_map. apply Forall_map.
    apply Forall_forall. cbn. auto.
  - intros d h tail ls fs vs used rest _ _ _ R _ _ B L. pose proof (rows_depth _ _ _ _ _ _ _ R B) as F. cbn [depth].
    destruct vs as [|v vs]; [cbn; lia|]. inversion F as [|? ? [_ L'] _]; subst.
    enough (list_max (map depth (v :: vs)) <= 1) by lia. apply max_below, Forall_map.
    eapply Forall_impl; [|exact F]. cbn. lia.
  - intros d h tail ls vs used rest _ _ _ IH _ _ B L. specialize (IH B). cbn [depth].
    enough (list_max (map depth vs) <= deepest + 1 - d) by lia. apply max_below, Forall_map.
    eapply Forall_impl; [|exact IH]. cbn. lia.
  - intros. constructor.
  - intros. constructor.
  - intros d n l ls v ls1 vs rest D I IH1 _ IH2 B. inversion B; subst. constructor; [apply IH1; auto|].
    apply IH2. eapply below_rest; [|eassumption]. eapply Ut; eauto.
  - intros. cbn. lia.
  - intros. cbn. lia.
  - intros. auto with arith.
  - intros d t ls m ls1 ms rest _ _ _ M IH1 _ IH2 B L. specialize (IH1 B ltac:(lia)).
    specialize (IH2 (below_rest _ _ _ (Um _ _ _ _ _ M) B)). cbn [depth].
    enough (list_max (map (fun m => depth (snd m)) (m :: ms)) <= deepest + 1 - d) by lia.
    apply max_below, Forall_map. constructor; [lia|]. eapply Forall_impl; [|exact IH2]. cbn. lia.
  - intros. cbn. lia.
Qed.

Lemma root_indented ls v : root double strict blanks ls v -> below ls -> depth v <= deepest + 3.
Proof.
  destruct nest_indented as (Nm & Ns & Na & _ & _). destruct (read_uses double strict blanks) as (Um & _).
  intros R B. destruct R as [|l ls h tail v rest _ _ _ A|l p _ _ _|l ls m ls1 ms rest _ _ M R].
  - cbn. lia.
  - inversion B; subst. specialize (Na _ _ _ _ _ _ A ltac:(auto) ltac:(lia)). lia.
  - cbn. lia.
  - inversion B as [|? ? _ B']; subst. specialize (Nm _ _ _ _ _ M B' ltac:(lia)).
    specialize (Ns _ _ _ _ _ R (below_rest _ _ _ (Um _ _ _ _ _ M) B')). cbn [depth].
    enough (list_max (map (fun m => depth (snd m)) (m :: ms)) <= deepest + 2) by lia.
    apply max_below, Forall_map. constructor; [lia|]. eapply Forall_impl; [|exact Ns]. cbn. lia.
Qed.
End Indented.

(** ** By the number of lines *)

Lemma rows_lines dl fs d n ls vs rest : rows double strict dl fs d n ls vs rest ->
  (vs <> [] -> 1 <= length ls) /\ Forall (fun v => depth v = 1) vs.
Proof.
  induction 1 as [ls|n ls E|n l ls ps vs rest D P S R IH]; (split; [try easy; cbn; lia|constructor]).
  - apply row_depth.
  - apply IH.
Qed.

Lemma nest_lines :
  (forall d t ls m rest, member double strict blanks d t ls m rest -> depth (snd m) <= 1 + 2 * length ls) /\
  (forall stop d ls ms rest, members double strict blanks stop d ls ms rest ->
     Forall (fun m => S (depth (snd m)) <= 2 * length ls) ms) /\
  (forall d h tail ls v rest, array double strict blanks d h tail ls v rest -> depth v <= 1 + 2 * length ls) /\
  (forall d n ls vs rest, items double strict blanks d n ls vs rest -> Forall (fun v => depth v <= 2 * length ls) vs) /\
  (forall d t ls v rest, item double strict blanks d t ls v rest -> depth v <= 2 + 2 * length ls).
Proof.
  destruct (read_uses double strict blanks) as (Um & Us & Ua & Ui & Ut).
  apply read_mutind.
  - intros. auto.
  - intros d t ls k q r l ls' ms rest _ _ _ -> Hd _ IH. cbn [snd depth].
    enough (list_max (map (fun m => depth (snd m)) ms) <= 2 * length (l :: ls')) by lia.
    apply max_below, Forall_map. eapply Forall_impl; [|exact IH]. cbn beta. lia.
  - intros. cbn. lia.
  - intros. cbn. lia.
  - intros. constructor.
  - intros stop d l ls m ls1 ms rest D N M IH1 _ IH2. destruct (Um _ _ _ _ _ M) as (u & -> & _). rewrite app_length in IH1.
    constructor; [cbn [length]; rewrite app_length; lia|]. eapply Forall_impl; [|exact IH2].
    cbn [length]. rewrite app_length. cbn beta. lia.
  - intros d h tail ls t ps _ _ _ _. cbn [depth].
    enough (list_max (map depth (map TPrim ps)) <= 0) by lia. apply max_below. rewrite map_map. apply Forall_map.
    apply Forall_forall. cbn. auto.
  - intros d h tail ls fs vs used rest _ _ _ R _ _. destruct (rows_lines _ _ _ _ _ _ _ R) as [L F]. cbn [depth].
    destruct vs as [|v vs]; [cbn; lia|]. specialize (L ltac:(discriminate)).
    enough (list_max (map depth (v :: vs)) <= 1) by lia. apply max_below, Forall_map.
    eapply Forall_impl; [|exact F]. cbn. lia.
  - intros d h tail ls vs used rest _ _ _ IH _ _. cbn [depth].
    enough (list_max (map depth vs) <= 2 * length ls) by lia. apply max_below, Forall_map. exact IH.
  - intros. constructor.
  - intros. constructor.
  - intros d n l ls v ls1 vs rest D I IH1 _ IH2. destruct (Ut _ _ _ _ _ I) as (u & -> & _). rewrite app_length in IH1.
    constructor; [cbn [length]; rewrite app_length; lia|]. eapply Forall_impl; [|exact IH2].
    cbn [length]. rewrite app_length. cbn beta. lia.
  - intros. cbn. lia.
  - intros. cbn. lia.
  - intros. lia.
  - intros d t ls m ls1 ms rest _ _ _ M IH1 _ IH2. destruct (Um _ _ _ _ _ M) as (u & -> & _). rewrite app_length in *. cbn [depth].
    enough (list_max (map (fun m => depth (snd m)) (m :: ms)) <= 1 + 2 * (length u + length ls1)) by lia.
    apply max_below, Forall_map. constructor; [lia|]. eapply Forall_impl; [|exact IH2]. cbn beta. lia.
  - intros. cbn. lia.
Qed.

Lemma root_lines ls v : root double strict blanks ls v -> depth v <= Nat.max 1 (2 * length ls).
Proof.
  destruct nest_lines as (Nm & Ns & Na & _ & _). destruct (read_uses double strict blanks) as (Um & _).
  intros R. destruct R as [|l ls h tail v rest _ _ _ A|l p _ _ _|l ls m ls1 ms rest _ _ M R].
  - cbn. lia.
  - specialize (Na _ _ _ _ _ _ A). cbn [length]. lia.
  - cbn. lia.
  - specialize (Nm _ _ _ _ _ M). specialize (Ns _ _ _ _ _ R).
    destruct (Um _ _ _ _ _ M) as (u & -> & _). cbn [depth length]. rewrite app_length in *.
    enough (list_max (map (fun m => depth (snd m)) (m :: ms)) <= 1 + 2 * (length u + length ls1)) by lia.
    apply max_below, Forall_map. constructor; [lia|]. eapply Forall_impl; [|exact Ns]. cbn beta. lia.
Qed.
End Nest.

(** ** C56 *)

(** The nesting of a decoded value exceeds the deepest indentation of a line by at most three, and
    twice the number of lines with text is never exceeded (but the empty text is the empty object). *)
Theorem C56_nesting_bounded :
  forall (text : str) (raws : list str) (indent : option nat) (strict : option bool) (expand : option expand_paths_mode)
         (v : json) (ls : list tline) (blanks : list nat),
    expand <> Some EPSafe -> try_decode text (Some (DecOpts indent strict expand)) = Ok v ->
    text = join cLF raws -> raws <> [] -> Forall (fun r => ~ In cLF r) raws ->
    scans (unwrap_or strict true) (unwrap_or indent 2) 1 raws ls blanks ->
    nesting v <= list_max (map tl_depth ls) + 3 /\ nesting v <= Nat.max 1 (2 * length ls).
Proof.
  intros text raws indent strict expand v ls blanks He E -> Hn Hl S.
  apply C47_decoded_value in E as (tr & (raws' & ls' & bs & Hn' & Et & Hl' & S' & R) & ->); [|exact He].
  assert (raws' = raws) as ->.
  { rewrite <- (Lex.split_join cLF raws'), <- (Lex.split_join cLF raws); auto. now rewrite Et. }
  assert (X : ls' = ls /\ bs = blanks) by (eapply scans_fun; eassumption). destruct X as [-> ->].
  rewrite depth_nesting. split.
  - eapply root_indented; [exact R|]. apply Forall_forall. intros l Hi. apply (in_map tl_depth) in Hi.
    pose proof (proj1 (list_max_le (map tl_depth ls) _) (le_n _)) as F. rewrite Forall_forall in F. auto.
  - eapply root_lines; exact R.
Qed.
Print Assumptions C56_nesting_bounded.

(** Both bounds are attained at once: three lines, the deepest with three indentations, six levels. *)
Definition nest_case : list str := [lit "k[1]:"; lit "  - k[1]:"; lit "      - k[1]: x"].
Example C56_attained :
  exists v ls, try_decode (join cLF nest_case) None = Ok v /\ scans true 2 1 nest_case ls [] /\
    nesting v = 6 /\ list_max (map tl_depth ls) + 3 = 6 /\ 2 * length ls = 6.
Proof.
  destruct (parse_lines_sync nest_case 2 true (ScanState 0 [])) as [[ls st]|] eqn:E; [|vm_compute in E; discriminate].
  destruct (ReadLine.scans_sound _ _ _ _ _ _ _ E) as (bs & S & Eb). vm_compute in E. injection E as <- <-.
  destruct bs; [|discriminate].
  exists (JObj [(lit "k", JArr [JObj [(lit "k", JArr [JObj [(lit "k", JArr [JPrim (PStr (lit "x"))])]])]])]).
  eexists. split; [vm_compute; reflexivity|]. split; [exact S|repeat split].
Qed.
