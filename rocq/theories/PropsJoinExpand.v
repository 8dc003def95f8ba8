(** C62: texts that stand one after the other, decoded with path expansion. *)
From Verif Require Import Chars Floats Json Shared Folding Scanner Parser Decoders EventBuilder Expand DecodeApi Lex Spec DecProps SpecText SpecRead
  ReadLex ReadHead ReadLine ReadProof SpecError ErrProof SpecCut PropsUnread CutProof SpecJoin JoinProof
  SpecExpand ExpandProof ExpandProps PropsFold PropsExpand SpecEdit NearProof PropsEditExpand.

Local Open Scope nat_scope.

(** ** Expanded nodes know of no quoted keys *)
Fixpoint bare (n : node) : Prop :=
  match n with
  | NPrim _ => True
  | NArr l => fold_right (fun x P => bare x /\ P) True l
  | NObj l q => q = [] /\ fold_right (fun kv P => bare (snd kv) /\ P) True l
  end.
Definition bares (l : list (str * node)) : Prop := Forall (fun kv => bare (snd kv)) l.
Lemma bare_arr l : bare (NArr l) <-> Forall bare l.
Proof. cbn. induction l as [|x l IH]; cbn; [split; auto|]. rewrite IH. split; [intros []; now constructor|intros H; inversion H; auto]. Qed.
Lemma bare_obj l q : bare (NObj l q) <-> q = [] /\ bares l.
Proof.
  cbn. unfold bares. enough (G : fold_right (fun kv P => bare (snd kv) /\ P) True l <-> Forall (fun kv : str * node => bare (snd kv)) l) by now rewrite G.
  induction l as [|x l IH]; cbn; [split; auto|]. rewrite IH. split; [intros []; now constructor|intros H; inversion H; auto].
Qed.
Lemma bare_json : forall m n, bare m -> bare n -> node_to_json m = node_to_json n -> m = n.
Proof.
  fix IH 1. intros [p|l|l q] [p'|l'|l' q'] Hm Hn E; cbn [node_to_json] in E; try discriminate; injection E as E.
  - now subst.
  - f_equal. apply bare_arr in Hm, Hn. revert l' Hm Hn E. induction l as [|x l IHl]; intros [|x' l'] Hm Hn E; cbn in E; try discriminate; [reflexivity|].
    injection E as E1 E2. f_equal; [apply IH; [now inversion Hm|now inversion Hn|exact E1]|apply IHl; [now inversion Hm|now inversion Hn|exact E2]].
  - apply bare_obj in Hm as [-> Hm], Hn as [-> Hn]. f_equal. revert l' Hm Hn E.
    induction l as [|[k x] l IHl]; intros [|[k' x'] l'] Hm Hn E; cbn in E; try discriminate; [reflexivity|].
    injection E as -> E1 E2. f_equal; [f_equal; apply IH; [now inversion Hm|now inversion Hn|exact E1]|apply IHl; [now inversion Hm|now inversion Hn|exact E2]].
Qed.
Lemma bares_get l k n : bares l -> entry_get l k = Some n -> bare n.
Proof. induction 1 as [|[k0 x] l H _ IH]; cbn; [discriminate|]. destruct (str_eqb k0 k); [intros [= <-]; exact H|exact IH]. Qed.
Lemma bares_set l k n : bares l -> bare n -> bares (entry_set l k n).
Proof. intros H Hn. induction H as [|[k0 x] l H Hl IH]; cbn; [constructor|]. destruct (str_eqb k0 k); constructor; auto. Qed.
Lemma bares_snoc l k n : bares l -> bare n -> bares (l ++ [(k, n)]).
Proof. intros H Hn. apply Forall_app. split; [exact H|]. now constructor. Qed.

Lemma merge_bare strict : forall left_ t s m, bares t -> bares s -> merge_objects left_ strict t s = Ok m -> bares m.
Proof.
  induction left_ as [|l IHl]; intros t s m Ht Hs E; [discriminate|]. cbn [merge_objects] in E. revert t Ht E.
  induction Hs as [|[k v] r Hv Hr IH]; intros t Ht E; [now injection E as <-|]. cbn [snd] in Hv.
  destruct (entry_get t k) as [x|] eqn:Eg; [|apply (IH _ (bares_snoc _ _ _ Ht Hv) E)].
  assert (Hx := bares_get _ _ _ Ht Eg).
  destruct x as [p|xs|eo eq]; [| |destruct v as [p|xs|so sq]];
    try (destruct strict; [discriminate|apply (IH _ (bares_set _ _ _ Ht Hv) E)]).
  apply bare_obj in Hx as [-> Hx], Hv as [_ Hv].
  destruct (merge_objects l strict eo so) as [m'|e] eqn:Em; cbn [bind] in E; [|discriminate].
  refine (IH _ (bares_set _ _ _ Ht _) E). apply bare_obj. split; [reflexivity|]. exact (IHl _ _ _ Hx Hv Em).
Qed.
Lemma literal_bare strict left_ es k v m : bares es -> bare v -> insert_literal_entry left_ strict es k v = Ok m -> bares m.
Proof.
  intros He Hv E. destruct left_ as [|l]; [discriminate|]. cbn [insert_literal_entry] in E.
  destruct (entry_get es k) as [x|] eqn:Eg; [|injection E as <-; now apply bares_snoc].
  assert (Hx := bares_get _ _ _ He Eg).
  destruct x as [p|xs|eo eq]; [| |destruct v as [p|xs|so sq]];
    try (destruct strict; [discriminate|injection E as <-; now apply bares_set]).
  apply bare_obj in Hx as [-> Hx], Hv as [_ Hv].
  destruct (merge_objects l strict eo so) as [m'|e] eqn:Em; cbn [bind] in E; [|discriminate]. injection E as <-.
  apply bares_set; [exact He|]. apply bare_obj. split; [reflexivity|]. exact (merge_bare _ _ _ _ _ Hx Hv Em).
Qed.
Lemma path_bare strict : forall left_ segs es v m, bares es -> bare v -> insert_path_entries left_ strict es segs v = Ok m -> bares m.
Proof.
  induction left_ as [|l IH]; intros segs es v m He Hv E; [discriminate|]. cbn [insert_path_entries] in E.
  destruct segs as [|k [|k2 rest]]; [now injection E as <-|eapply literal_bare; eauto|].
  assert (New : forall m', insert_path_entries l strict [] (k2 :: rest) v = Ok m' -> bare (NObj m' [])).
  { intros m' E'. apply bare_obj. split; [reflexivity|]. refine (IH _ _ _ _ _ Hv E'). constructor. }
  destruct (entry_get es k) as [x|] eqn:Eg.
  - assert (Hx := bares_get _ _ _ He Eg). destruct x as [p|xs|eo eq].
    + destruct strict; [discriminate|]. destruct (insert_path_entries l false [] (k2 :: rest) v) as [m'|] eqn:Em; cbn [bind] in E; [|discriminate].
      injection E as <-. apply bares_set; auto.
    + destruct strict; [discriminate|]. destruct (insert_path_entries l false [] (k2 :: rest) v) as [m'|] eqn:Em; cbn [bind] in E; [|discriminate].
      injection E as <-. apply bares_set; auto.
    + apply bare_obj in Hx as [-> Hx]. destruct (insert_path_entries l strict eo (k2 :: rest) v) as [m'|] eqn:Em; cbn [bind] in E; [|discriminate].
      injection E as <-. apply bares_set; [exact He|]. apply bare_obj. split; [reflexivity|]. exact (IH _ _ _ _ Hx Hv Em).
  - destruct (insert_path_entries l strict [] (k2 :: rest) v) as [m'|] eqn:Em; cbn [bind] in E; [|discriminate].
    injection E as <-. apply bares_snoc; auto.
Qed.
Lemma expand_bare strict : forall left_ n m, expand_inner left_ strict n = Ok m -> bare m.
Proof.
  induction left_ as [left_ IH] using lt_wf_ind. intros n m E. destruct left_ as [|l]; [discriminate|]. destruct n as [p|xs|es q].
  - cbn [expand_inner] in E. injection E as <-. exact I.
  - rewrite expand_arr in E. destruct (map_result (expand_inner l strict) xs) as [ys|] eqn:Em; cbn [bind] in E; [|discriminate].
    injection E as <-. apply bare_arr. revert ys Em. induction xs as [|x xs IHx]; intros ys Em; cbn [map_result] in Em.
    + injection Em as <-. constructor.
    + destruct (expand_inner l strict x) as [y|] eqn:Ex; cbn [bind] in Em; [|discriminate].
      destruct (map_result (expand_inner l strict) xs) as [ys'|]; cbn [bind] in Em; [|discriminate]. injection Em as <-.
      constructor; [|now apply IHx]. refine (IH l _ _ _ Ex). lia.
  - destruct l as [|l]; [discriminate|]. rewrite expand_obj in E.
    destruct (expand_go l strict q [] es) as [a|] eqn:Eg; cbn [bind] in E; [|discriminate]. injection E as <-. apply bare_obj. split; [reflexivity|].
    assert (G : forall acc, bares acc -> expand_go l strict q acc es = Ok a -> bares a); [|apply (G []); [constructor|exact Eg]].
    clear Eg. induction es as [|[k v] es IHe]; intros acc Ha Eg; cbn [expand_go] in Eg; [now injection Eg as <-|].
    destruct (expand_inner l strict v) as [w|] eqn:Ev; cbn [bind] in Eg; [|discriminate].
    destruct (insert_entry l strict q acc k w) as [acc'|] eqn:Ei; cbn [bind] in Eg; [|discriminate].
    refine (IHe _ _ Eg). assert (Hw : bare w) by (refine (IH l _ _ _ Ev); lia). unfold insert_entry in Ei.
    destruct (expandable k q); [exact (path_bare _ _ _ _ _ _ Ha Hw Ei)|exact (literal_bare _ _ _ _ _ _ Ha Hw Ei)].
Qed.
Lemma expand_go_app l strict q : forall a b acc,
  expand_go l strict q acc (a ++ b) = let? acc' := expand_go l strict q acc a in expand_go l strict q acc' b.
Proof.
  induction a as [|[k v] a IH]; intros b acc; cbn [app expand_go bind]; [reflexivity|].
  destruct (expand_inner l strict v) as [w|]; cbn [bind]; [|reflexivity]. destruct (insert_entry l strict q acc k w) as [acc'|]; cbn [bind]; auto.
Qed.
(** Members after two objects that are expanded into the same value. *)
Lemma expanded_then left_ strict (ea ea' eb : list (str * node)) v :
  (let? m := expand_inner left_ strict (NObj ea []) in Ok (node_to_json m)) = Ok v ->
  (let? m := expand_inner left_ strict (NObj ea' []) in Ok (node_to_json m)) = Ok v ->
  expand_inner left_ strict (NObj (ea ++ eb) []) = expand_inner left_ strict (NObj (ea' ++ eb) []).
Proof.
  intros E E'. destruct left_ as [|[|l]]; [discriminate|discriminate|].
  destruct (expand_inner (S (S l)) strict (NObj ea [])) as [m|] eqn:Em; cbn [bind] in E; [|discriminate].
  destruct (expand_inner (S (S l)) strict (NObj ea' [])) as [m'|] eqn:Em'; cbn [bind] in E'; [|discriminate].
  assert (m' = m) as ->.
  { apply bare_json; [eapply expand_bare; eauto|eapply expand_bare; eauto|]. congruence. }
  rewrite expand_obj in Em, Em'. rewrite !expand_obj, !expand_go_app.
  destruct (expand_go l strict [] [] ea) as [x|]; cbn [bind] in *; [|discriminate].
  destruct (expand_go l strict [] [] ea') as [x'|]; cbn [bind] in *; [|discriminate]. congruence.
Qed.

Lemma paths_then strict (ea ea' eb : list (str * node)) v :
  (let? m := expand_paths_safe (NObj ea []) strict in Ok (node_to_json m)) = Ok v ->
  (let? m := expand_paths_safe (NObj ea' []) strict in Ok (node_to_json m)) = Ok v ->
  expand_paths_safe (NObj (ea ++ eb) []) strict = expand_paths_safe (NObj (ea' ++ eb) []) strict.
Proof. unfold expand_paths_safe. generalize MAX_EXPAND_DEPTH. intros n. apply expanded_then. Qed.

(** ** Keys without quotes *)
Lemma begins_quote a t : blank a -> begins cDQ t -> begins cDQ (a ++ t).
Proof. intros Ha (w & r & -> & Hw). exists (a ++ w), r. split; [now rewrite app_assoc|]. apply Forall_app. auto. Qed.
Lemma header_quote t h tail k : is_header t h tail -> hl_key h = Some (k, true) -> begins cDQ t.
Proof.
  intros H E. inversion H as [k0 len fields tl key n dl fs F Fk _ _ _]; subst. cbn in E. subst key.
  inversion Fk as [| |t0 s Tr Q]; subst. destruct Tr as (a & b & -> & Ha & _). destruct Q as (c & -> & _).
  destruct F as (r & after & Hh & _). inversion Hh as [k1 r1 Nb C|w b1 r1 -> Bw _ Eb]; subst.
  - exfalso. apply Nb. destruct C as [-> _]. exists a, ((c ++ [cDQ]) ++ b ++ cLBRACK :: r). split; [|exact Ha]. now rewrite <- !app_assoc, <- app_comm_cons, <- !app_assoc.
  - exists w, (b1 ++ cDQ :: cLBRACK :: r). auto.
Qed.
Lemma member_unquoted strict bs d t ls m rest : member parse_f64 strict bs d t ls m rest -> ~ begins cDQ t -> snd (fst m) = false.
Proof.
  intros M N.
  assert (K : forall k q r, key_line t k q r -> q = false).
  { intros k q r [b k' r' E _|]; [|reflexivity]. exfalso. apply N. exists [], (b ++ cDQ :: cCOLON :: r'). split; [exact E|constructor]. }
  inversion M as [d0 t0 ls0 h tail k q v rest0 H E A|d0 t0 ls0 k q r l ls' ms rest0 P Kl B E D Ms|d0 t0 ls0 k q r P Kl B En|d0 t0 ls0 k q r p P Kl B Pt]; subst; cbn [fst snd]; try (eapply K; eassumption).
  destruct q; [|reflexivity]. exfalso. apply N. eapply header_quote; eauto.
Qed.
Notation unquoted_lines := (Forall (fun l => ~ begins cDQ (tl_text l))).
Lemma members_unquoted strict bs stop d ls ms rest : members parse_f64 strict bs stop d ls ms rest -> unquoted_lines ls -> Forall (fun m => snd (fst m) = false) ms.
Proof.
  induction 1 as [|stop d l ls m ls1 ms rest D N M R IH]; intros U; [constructor|]. inversion U as [|? ? Ul Us]; subst.
  constructor; [eapply member_unquoted; eauto|]. apply IH.
  destruct (proj1 (read_uses parse_f64 strict bs) _ _ _ _ _ M) as (used & -> & _). now apply Forall_app in Us.
Qed.
Lemma root_unquoted strict bs ls ms rest : root_to parse_f64 strict bs ls (TObj ms) rest -> unquoted_lines ls -> Forall (fun m => snd (fst m) = false) ms.
Proof.
  intros R U. inversion R as [|l ls0 h tail v rest0 B Q H A|l p N C P|l ls0 m ls1 ms0 rest0 N M Rs]; subst; [constructor|inversion A|].
  inversion U as [|? ? Ul Us]; subst. constructor; [eapply member_unquoted; eauto|]. eapply members_unquoted; [exact Rs|].
  destruct (proj1 (read_uses parse_f64 strict bs) _ _ _ _ _ M) as (used & -> & _). now apply Forall_app in Us.
Qed.
Lemma scans_unquoted strict size n raws ls bs : scans strict size n raws ls bs -> Forall (fun l => ~ begins cDQ l) raws -> unquoted_lines ls.
Proof.
  induction 1 as [n|n raw raws ls bs B Sc IH|n k t d raws ls bs B N D T Sc IH]; intros U; [constructor| |]; inversion U as [|? ? U1 U2]; subst; auto.
  constructor; [|auto]. cbn. intros X. apply U1. apply begins_quote; [|exact X]. apply Forall_forall. intros c I. apply repeat_spec in I. now subst.
Qed.
Lemma unquoted_node ms : Forall (fun m : str * bool * tree => snd (fst m) = false) ms ->
  node_of (tree_doc (TObj ms)) = NObj (map (fun m => (fst (fst m), node_of (tree_doc (snd m)))) ms) [].
Proof.
  intros H. cbn [tree_doc node_of]. rewrite map_map. cbn [fst snd]. f_equal.
  induction H as [|m ms Hm _ IH]; [reflexivity|]. cbn [map filter fst snd]. rewrite Hm. exact IH.
Qed.

(** Lines after an object, scanned with it and without it. *)
Lemma scans_both d b ls bs a v : rd_expand (resolve_decode_options d) = EPOff ->
  let strict := rd_strict (resolve_decode_options d) in let size := rd_indent (resolve_decode_options d) in
  scans strict size 1 b ls bs -> starts_unindented b -> needed (fun lines => try_decode_from_lines lines d) a v -> exists lsa bsa tr,
  scans strict size 1 a lsa bsa /\
  scans strict size 1 (a ++ b) (lsa ++ map (sh (length a)) ls) (bsa ++ map (Nat.add (length a)) bs) /\
  root_to parse_f64 strict bsa lsa tr [] /\ v = tree_json tr /\ lsa <> [] /\ JoinProof.below (S (length a)) lsa /\
  Forall (fun n => n <= length a) bsa /\
  (forall l r, map (sh (length a)) ls = l :: r -> tl_depth l = 0) /\
  (forall n, In n (bsa ++ map (Nat.add (length a)) bs) -> In n bsa \/ S (length a) <= n).
Proof.
  intros He strict size Sb Ub H. destruct (needed_read d He _ _ H) as (lsa & bsa & tr & Sa & R & E & Hn). exists lsa, bsa, tr.
  destruct (scans_range _ _ _ _ _ _ Sa) as [R1 R2]. destruct (scans_range _ _ _ _ _ _ Sb) as [_ R4]. split; [exact Sa|].
  split. { apply scans_app; [exact Sa|]. rewrite Nat.add_comm. now apply scans_move. }
  split; [exact R|]. split; [exact E|]. split; [exact Hn|].
  split; [eapply Forall_impl; [|exact R1]; cbn; lia|]. split; [eapply Forall_impl; [|exact R2]; cbn; lia|]. split.
  - intros l r Em. pose proof (scans_depth _ _ _ _ _ _ Sb Ub) as Dp. clear - Em Dp.
    destruct ls as [|l0 ls0]; [discriminate|]. injection Em as <- _. exact (Dp l0 ls0 eq_refl).
  - intros n I. apply in_app_or in I as [I|I]; [now left|right]. apply in_map_iff in I as (m & <- & I).
    rewrite Forall_forall in R4. apply R4 in I. lia.
Qed.

(** With path expansion, what lines that start unindented give after an object depends only on the
    value into which the object was expanded, not on how it was written.  No line may start with a
    quote: a key in quotes stops the expansion of the same key elsewhere in its object. *)
Theorem C62_after_expanded :
  forall (a a' b : list str) (va va' : list (str * json)) (v : json) (indent : option nat) (strict : option bool),
    starts_unindented b -> Forall (fun l => ~ begins cDQ l) (a ++ a' ++ b) ->
    let plain := fun lines => try_decode_from_lines lines (Some (DecOpts indent strict None)) in
    let safe := fun lines => try_decode_from_lines lines (Some (DecOpts indent strict (Some EPSafe))) in
    needed plain a (JObj va) -> needed plain a' (JObj va') ->
    safe a = Ok v -> safe a' = Ok v ->
    safe (a ++ b) = safe (a' ++ b) \/
    (exists e, safe (a ++ b) = Err (moved (length a) e) /\ safe (a' ++ b) = Err (moved (length a') e)).
Proof.
  intros a a' b va va' v indent strict Ub U plain safe Ha Ha' Ea Ea'. set (d := Some (DecOpts indent strict None)) in *.
  assert (He : rd_expand (resolve_decode_options d) = EPOff) by reflexivity.
  apply Forall_app in U as [Ua U]. apply Forall_app in U as [Ua' Ub'].
  set (s := unwrap_or strict true). set (sz := unwrap_or indent 2).
  destruct (scans_total s sz b) as [(S & e & F)|(ls & bs & Sb)].
  - right. exists e. split.
    + destruct (needed_read d He _ _ Ha) as (lsa & bsa & _ & Sc & _). apply lines_indent; [exact S|]. change (scans s sz 1 a lsa bsa) in Sc. rewrite S in Sc.
      eapply indent_app; [exact Sc|]. rewrite Nat.add_comm. now apply indent_move.
    + destruct (needed_read d He _ _ Ha') as (lsa & bsa & _ & Sc & _). apply lines_indent; [exact S|]. change (scans s sz 1 a' lsa bsa) in Sc. rewrite S in Sc.
      eapply indent_app; [exact Sc|]. rewrite Nat.add_comm. now apply indent_move.
  - assert (One : forall x vx, needed plain x (JObj vx) -> safe x = Ok v -> Forall (fun l => ~ begins cDQ l) x -> exists mx : list (str * bool * tree),
      Forall (fun m => snd (fst m) = false) mx /\
      (let? m := expand_paths_safe (node_of (tree_doc (TObj mx))) s in Ok (node_to_json m)) = Ok v /\
      (forall ms rest, members parse_f64 s bs false 0 ls ms rest ->
         safe (x ++ b) = (let? m := expand_paths_safe (node_of (tree_doc (TObj (mx ++ ms)))) s in Ok (node_to_json m))) /\
      (forall e, members_fail parse_f64 s bs false 0 ls e -> safe (x ++ b) = Err (moved (length x) e))).
    { intros x vx Hx Ex Ux. destruct (scans_both d b ls bs x _ He Sb Ub Hx) as (l1 & b1 & t1 & Sx & Sc1 & R1 & E1 & Hn1 & Bl1 & Ho1 & Hq1 & Hb1).
      destruct t1 as [|? ?|m1]; try discriminate. exists m1.
      destruct (object_then _ _ _ _ _ Hq1 Hb1 _ _ R1 Bl1 Hn1) as [Hm1 Hf1].
      split; [eapply root_unquoted; [exact R1|]; eapply scans_unquoted; [exact Sx|exact Ux]|]. split; [|split].
      - assert (Ro : root parse_f64 s b1 l1 (TObj m1)).
        { assert (Hq0 : forall l r, @nil tline = l :: r -> tl_depth l = 0) by discriminate.
          assert (Hb0 : forall n, In n b1 -> In n b1 \/ S (length x) <= n) by auto.
          destruct (object_then _ _ _ _ _ Hq0 Hb0 _ _ R1 Bl1 Hn1) as [Hm0 _].
          specialize (Hm0 [] []). rewrite !app_nil_r in Hm0. apply Hm0. apply ms_end. intros l r [=]. }
        rewrite <- Ex. symmetry. exact (stream_expanded _ indent strict _ _ _ Sx Ro).
      - intros ms rest M. destruct (read_move parse_f64 s bs b1 (length x) Ho1) as (_ & Ms1 & _).
        exact (stream_expanded _ indent strict _ _ _ Sc1 (Hm1 _ _ (Ms1 _ _ _ _ _ M))).
      - intros e F. destruct (fail_move parse_f64 s bs b1 (length x) Ho1) as (_ & Ms1 & _).
        exact (lines_err _ (Some (DecOpts indent strict (Some EPSafe))) _ _ _ Sc1 (Hf1 _ (Ms1 _ _ _ _ F))). }
    destruct (One _ _ Ha Ea Ua) as (m1 & U1 & X1 & G1 & F1). destruct (One _ _ Ha' Ea' Ua') as (m2 & U2 & X2 & G2 & F2). clear One.
    destruct (members_total _ _ _ _ _ Sb) as [(ms & rest & M)|(e & F)]; [left|right; exists e; split; [now apply F1|now apply F2]].
    rewrite (G1 _ _ M), (G2 _ _ M).
    assert (U : Forall (fun m : str * bool * tree => snd (fst m) = false) ms) by (eapply members_unquoted; [exact M|]; eapply scans_unquoted; [exact Sb|exact Ub']).
    rewrite unquoted_node in X1, X2 by assumption. rewrite !unquoted_node by (apply Forall_app; auto). rewrite !map_app.
    exact (f_equal (fun r => let? m := r in Ok (node_to_json m)) (paths_then s _ _ (map (fun m => (fst (fst m), node_of (tree_doc (snd m)))) ms) v X1 X2)).
Qed.
Print Assumptions C62_after_expanded.

(** An object written with a path and one written out; more members of the same object follow. *)
Example C62_after_expanded_case :
  let plain := fun lines => try_decode_from_lines lines (Some (DecOpts None None None)) in
  let safe := fun lines => try_decode_from_lines lines (Some (DecOpts None None (Some EPSafe))) in
  let t := JPrim (PBool true) in
  let a := [lit "a.b: true"] in let a' := [lit "a:"; lit "  b: true"] in let b := [lit "a.c: true"; lit "d: true"] in
  needed plain a (JObj [(lit "a.b", t)]) /\ needed plain a' (JObj [(lit "a", JObj [(lit "b", t)])]) /\
  safe a = Ok (JObj [(lit "a", JObj [(lit "b", t)])]) /\ safe a' = Ok (JObj [(lit "a", JObj [(lit "b", t)])]) /\
  safe (a ++ b) = Ok (JObj [(lit "a", JObj [(lit "b", t); (lit "c", t)]); (lit "d", t)]) /\
  safe (a' ++ b) = Ok (JObj [(lit "a", JObj [(lit "b", t); (lit "c", t)]); (lit "d", t)]) /\
  starts_unindented b /\ Forall (fun l => ~ begins cDQ l) (a ++ a' ++ b).
Proof.
  cbv zeta. split; [|split; [|split; [|split; [|split; [|split; [|split]]]]]]; try (vm_compute; reflexivity).
  - split; [vm_compute; reflexivity|vm_compute; discriminate].
  - split; [vm_compute; reflexivity|vm_compute; discriminate].
  - intros [|x bl] l r E B N s ->; injection E as E; [discriminate|]. inversion B as [|? ? Bx _]; subst. inversion Bx; discriminate.
  - cbn [app]. repeat apply Forall_cons; [| | | | |apply Forall_nil]; intros B; apply begins_spec in B; try reflexivity; vm_compute in B; discriminate.
Qed.
(** With a key in quotes the way the object is written matters: the path that was expanded is not
    expanded any more, and the key is there twice. *)
Example C62_quoted_key_after :
  let safe := fun lines => try_decode_from_lines lines (Some (DecOpts None None (Some EPSafe))) in
  let t := JPrim (PBool true) in
  let a := [lit "a.b: true"] in let a' := [lit "a:"; lit "  b: true"] in let b := [lit """a.b"": true"] in
  safe a = safe a' /\
  safe (a ++ b) = Err (EExpandConflict (CKey (lit "a.b") KPrim KPrim)) /\
  safe (a' ++ b) = Ok (JObj [(lit "a", JObj [(lit "b", t)]); (lit "a.b", t)]).
Proof. vm_compute. repeat split. Qed.
