(** C70 with folded keys: where no key has a dot, texts are composed as without. *)
From Verif Require Import Chars Floats Json JsonInd Lex Spec Normalize JsonEq EncodeApi TextProof SpecText SpecParts FoldShort SizeProof PropsText PartsProof.

Local Open Scope nat_scope.

Section Fold.
Variable dl : char.
Variable fold : bool.
Variable dp : N.
Notation document := (document f64_to_string dl fold dp).
Notation folds := (folds fold).
Notation member := (member f64_to_string dl fold dp).
Notation value_of := (value_of f64_to_string dl fold dp).
Notation members := (members f64_to_string dl fold dp).
Notation array := (array f64_to_string dl fold dp).
Notation items := (items f64_to_string dl fold dp).
Notation item := (item f64_to_string dl fold dp).

Definition alike (c c' : place) : Prop := pl_literals c = [] /\ pl_literals c' = [] /\ pl_budget c' = pl_budget c.
Lemma alike_folds c c' sibs k v ks z : alike c c' -> (folds c' sibs k v ks z <-> folds c sibs k v ks z).
Proof. intros (A & B & E). unfold SpecText.folds. rewrite A, B, E. reflexivity. Qed.

(** With no dotted key at the root the path does not matter, and depth only shifts the lines. *)
Lemma shifted_fold n :
  (forall c sibs d kv ls, member c sibs d kv ls -> forall c', alike c c' -> member c' sibs (n + d) kv (deeper n ls)) /\
  (forall c d k v ls, value_of c d k v ls -> pl_literals c = [] ->
     exists (kt t : str) (ls' : list dline), key_text k kt /\ ls = (d, kt ++ t) :: ls' /\
       forall c' k' kt', alike c c' -> key_text k' kt' -> value_of c' (n + d) k' v ((n + d, kt' ++ t) :: deeper n ls')) /\
  (forall c sibs d l ls, members c sibs d l ls -> forall c', alike c c' -> members c' sibs (n + d) l (deeper n ls)) /\
  (forall b key d l ls, array b key d l ls ->
     exists (kt t : str) (ls' : list dline), (match key with Some k => key_text k kt | None => kt = [] end) /\ ls = (d, kt ++ t) :: ls' /\
       forall key' kt', (match key' with Some k => key_text k kt' | None => kt' = [] end) ->
         array b key' (n + d) l ((n + d, kt' ++ t) :: deeper n ls')) /\
  (forall d l ls, items d l ls -> items (n + d) l (deeper n ls)) /\
  (forall d v ls, item d v ls -> item (n + d) v (deeper n ls)).
Proof.
  assert (HD : forall key m fields h, header dl key m fields h ->
    exists kt t : str, (match key with Some k => key_text k kt | None => kt = [] end) /\ h = kt ++ t /\
      forall key' kt', (match key' with Some k => key_text k kt' | None => kt' = [] end) -> header dl key' m fields (kt' ++ t)).
  { intros key m fields h H. destruct H as [key m fields kt nt dt ft Hk Hn Hd Hf]. eexists kt, _. split; [exact Hk|].
    split; [reflexivity|]. intros key' kt' Hk'. now constructor. }
  apply text_mutind.
  - intros c sibs d k v ks z ls F _ IH c' A. pose proof A as (A1 & A2 & A3). destruct (IH A1) as (kt & t & ls' & K & -> & H).
    apply me_folded with ks z; [now apply (alike_folds c c')|]. apply H; [|exact K]. repeat split; cbn [pl_literals pl_budget]; congruence.
  - intros c sibs d k v ls N _ IH c' A. pose proof A as (A1 & A2 & A3). destruct (IH A1) as (kt & t & ls' & K & -> & H).
    apply me_plain; [intros ks z F; apply (alike_folds c c') in F; [now apply N in F|exact A]|]. apply H; [|exact K]. repeat split; cbn [pl_literals pl_budget]; congruence.
  - intros c d k p kt t K T _. exists kt, (cCOLON :: cSPACE :: t), []. split; [exact K|]. split; [reflexivity|]. intros c' k' kt' _ K'. now constructor.
  - intros c d k l kt ls K _ IH _. exists kt, [cCOLON], ls. split; [exact K|]. split; [reflexivity|]. intros c' k' kt' A K'. constructor; [exact K'|].
    rewrite plus_n_Sm. now apply IH.
  - intros c d k l ls _ (kt & t & ls' & K & -> & H) _. exists kt, t, ls'. split; [exact K|]. split; [reflexivity|]. intros c' k' kt' _ K'.
    apply vo_arr. now apply H.
  - intros. constructor.
  - intros c sibs d kv l a b _ IH1 _ IH2 c' A. unfold deeper. rewrite map_app. constructor; [now apply IH1|now apply IH2].
  - intros b key d h H. destruct (HD _ _ _ _ H) as (kt & t & K & -> & H'). exists kt, t, []. split; [exact K|]. split; [reflexivity|].
    intros key' kt' K'. apply ar_empty. now apply H'.
  - intros b key d p ps h r H R. destruct (HD _ _ _ _ H) as (kt & t & K & -> & H'). exists kt, (t ++ cSPACE :: r), []. split; [exact K|].
    split; [now rewrite <- app_assoc|]. intros key' kt' K'. rewrite app_assoc. apply ar_inline; auto.
  - intros key d l fields rows h ts T H R. destruct (HD _ _ _ _ H) as (kt & t & K & -> & H'). exists kt, t, (map (fun t => (S d, t)) ts).
    split; [exact K|]. split; [reflexivity|]. intros key' kt' K'. unfold deeper. rewrite map_map. cbn [fst snd]. rewrite <- plus_n_Sm. eapply ar_table; eauto.
  - intros b key d l h ls N1 N2 H _ IH. destruct (HD _ _ _ _ H) as (kt & t & K & -> & H'). exists kt, t, ls.
    split; [exact K|]. split; [reflexivity|]. intros key' kt' K'. rewrite <- plus_n_Sm in IH. apply ar_list; auto.
  - intros. constructor.
  - intros d v l a b _ IH1 _ IH2. unfold deeper. rewrite map_app. now constructor.
  - intros d p t T. now constructor.
  - intros d l t ls _ (kt & t' & ls' & K & E & H). cbn in K. subst kt. injection E as -> ->. cbn [deeper map fst snd].
    constructor. now apply (H None []).
  - intros. apply it_none.
  - intros d k v l t a b _ IHv _ IH. destruct (IHv eq_refl) as (kt & t' & ls' & K & E & H). injection E as -> ->. cbn [deeper map fst snd]. rewrite map_app.
    assert (A : alike (fresh dp) (fresh dp)) by (repeat split).
    specialize (H (fresh dp) k kt A K). specialize (IH _ A). rewrite <- plus_n_Sm in H, IH. apply it_obj; [exact H|exact IH].
Qed.

(** A folded key has a dot: siblings without a dot do not matter. *)
Definition dotless (l : list (str * json)) : Prop := Forall (fun kv => ~ In cDOT (fst kv)) l.
Lemma joined_dot k ks : ks <> [] -> In cDOT (join cDOT (k :: ks)).
Proof. destruct ks as [|k2 ks]; [congruence|]. intros _. cbn [join]. apply in_or_app. right. now left. Qed.
Lemma siblings_matter_not c sibs sibs' d l ls : Forall (fun k => ~ In cDOT k) sibs -> Forall (fun k => ~ In cDOT k) sibs' ->
  members c sibs d l ls -> members c sibs' d l ls.
Proof.
  intros H H'. assert (E : forall k v ks z, folds c sibs k v ks z <-> folds c sibs' k v ks z).
  { intros k v ks z. rewrite Forall_forall in H, H'. split; intros (F1 & F2 & F3 & F4 & F5 & F6 & F7 & F8); repeat (split; [assumption|]).
    - split; [|assumption]. intros I. apply H' in I. now apply I, joined_dot.
    - split; [|assumption]. intros I. apply H in I. now apply I, joined_dot. }
  revert ls. induction l as [|kv l IH]; intros ls M; inversion M as [|? ? ? ? ? a b Hm Hr]; subst; constructor; auto.
  inversion Hm as [? ? ? k v ks z ? F V|? ? ? k v ? N V]; subst.
  - apply me_folded with ks z; [now apply E|exact V].
  - apply me_plain; [intros ks z F; apply E in F; now apply N in F|exact V].
Qed.
Lemma dotless_doc l doc : dotless l -> (document (JObj l) doc <-> members (fresh dp) (map fst l) 0 l doc).
Proof.
  intros U. split.
  - intros H. inversion H as [| |? dk ? I M]; subst. destruct dk as [|k dk]; [exact M|]. exfalso.
    destruct (proj1 (I k) (or_introl eq_refl)) as [Ik Hk]. apply in_map_iff in Ik as (kv & <- & Ikv). unfold dotless in U. rewrite Forall_forall in U. exact (U _ Ikv Hk).
  - intros M. apply do_obj with []; [|exact M]. intros k. split; [intros []|]. intros [Ik Hk]. apply in_map_iff in Ik as (kv & <- & Ikv).
    unfold dotless in U. rewrite Forall_forall in U. exact (U _ Ikv Hk).
Qed.
Lemma dotless_keys l : dotless l -> Forall (fun k => ~ In cDOT k) (map fst l).
Proof. intros U. now apply Forall_map. Qed.
Lemma fold_members_app c sibs d l m la lb : members c sibs d l la -> members c sibs d m lb -> members c sibs d (l ++ m) (la ++ lb).
Proof.
  intros A B. revert la A. induction l as [|x l IH]; intros la A; inversion A as [|? ? ? ? ? y z M M2]; subst; [exact B|].
  rewrite <- app_assoc. cbn [app]. constructor; [exact M|]. now apply IH.
Qed.
Lemma dotless_join a b da db : dotless (a ++ b) -> document (JObj a) da -> document (JObj b) db -> document (JObj (a ++ b)) (da ++ db).
Proof.
  intros U. pose proof U as U'. apply Forall_app in U' as [Ua Ub]. rewrite !dotless_doc by assumption. intros Ma Mb.
  apply fold_members_app; (eapply siblings_matter_not; [| |eassumption]); now apply dotless_keys.
Qed.
Lemma dotless_under k kt l doc : key_text k kt -> ~ In cDOT k -> dotless l -> (forall kv, l <> [kv]) -> document (JObj l) doc ->
  document (JObj [(k, JObj l)]) ((0, kt ++ [cCOLON]) :: deeper 1 doc).
Proof.
  intros K Hk U N1. rewrite dotless_doc by exact U. intros M.
  apply dotless_doc; [now apply Forall_cons|]. rewrite <- (app_nil_r ((0, kt ++ [cCOLON]) :: deeper 1 doc)). constructor; [|constructor].
  apply me_plain.
  - intros ks z (_ & Hne & C & _). inversion C as [|? ? ? ? C']; subst; [congruence|]. now eapply N1.
  - apply vo_obj; [exact K|]. apply (proj1 (proj2 (proj2 (shifted_fold 1))) _ _ _ _ _ M). repeat split.
Qed.
End Fold.

Section Options.
Variable indent : option nat.
Variable delimiter : option char.
Variable mode : option key_folding_mode.
Variable depth : option N.
Let spaces := unwrap_or indent 2.
Notation lines v := (encode_lines 0 v (Some (EncOpts indent delimiter mode depth None))).
Let norm := fun kv : str * json => (fst kv, normalize_json_value (snd kv)).
Lemma norm_dotless l : dotless l -> dotless (map norm l).
Proof. intros H. unfold dotless. apply Forall_map. exact H. Qed.

(** Objects whose keys have no dots: the lines of the members one after the other, folded or not. *)
Theorem C70_members_folded :
  forall (a b : list (str * json)) (la lb : list str), Forall (fun kv => ~ In cDOT (fst kv)) (a ++ b) ->
    lines (JObj a) = Ok la -> lines (JObj b) = Ok lb -> lines (JObj (a ++ b)) = Ok (la ++ lb).
Proof.
  intros a b la lb U Ha Hb. apply (C46_encoded_text _ _ _ _ _ _ _ (normalize_spec _)) in Ha as (da & Da & ->), Hb as (db & Db & ->).
  apply (C46_encoded_text _ _ _ _ _ _ _ (normalize_spec _)). exists (da ++ db). split; [|now rewrite map_app].
  change (normalize_json_value (JObj a)) with (JObj (map norm a)) in Da. change (normalize_json_value (JObj b)) with (JObj (map norm b)) in Db.
  change (normalize_json_value (JObj (a ++ b))) with (JObj (map norm (a ++ b))). apply norm_dotless in U. rewrite map_app in *. now apply dotless_join.
Qed.

(** A member whose value is an object with no or several members, none of whose keys has a dot: its
    key and the lines of the object one level deeper, folded or not. *)
Theorem C70_member_folded :
  forall (k kt : str) (l : list (str * json)) (ls : list str),
    key_text k kt -> ~ In cDOT k -> Forall (fun kv => ~ In cDOT (fst kv)) l -> length l <> 1 ->
    lines (JObj l) = Ok ls -> lines (JObj [(k, JObj l)]) = Ok ((kt ++ [cCOLON]) :: pushed spaces ls).
Proof.
  intros k kt l ls K Hk U L H. apply (C46_encoded_text _ _ _ _ _ _ _ (normalize_spec _)) in H as (doc & D & ->).
  apply (C46_encoded_text _ _ _ _ _ _ _ (normalize_spec _)). exists ((0, kt ++ [cCOLON]) :: deeper 1 doc). split.
  - change (normalize_json_value (JObj l)) with (JObj (map norm l)) in D.
    change (normalize_json_value (JObj [(k, JObj l)])) with (JObj [(k, JObj (map norm l))]). apply dotless_under; auto using norm_dotless.
    intros kv E. apply (f_equal (@length _)) in E. rewrite map_length in E. cbn in E. contradiction.
  - cbn [map]. unfold pushed, deeper, shown. rewrite !map_map. cbn [fst snd]. rewrite Nat.mul_0_r. cbn [repeat app]. f_equal.
    apply map_ext. intros [d t]. cbn [fst snd]. fold spaces. rewrite Nat.mul_succ_r, Nat.add_comm, repeat_app, app_assoc. reflexivity.
Qed.
End Options.
Print Assumptions C70_members_folded.
Print Assumptions C70_member_folded.

(** Two members with folded keys below a key, and two such objects joined; an object with one member
    is folded into its key instead. *)
Example C70_folded_case :
  let lines := fun v => encode_lines 0 v (Some (EncOpts None None (Some KFSafe) None None)) in
  let a := [(lit "a", JObj [(lit "b", JPrim PNull)])] in
  let b := [(lit "c", JObj [(lit "d", JObj [(lit "e", JArr [])])])] in
  lines (JObj a) = Ok [lit "a.b: null"] /\ lines (JObj b) = Ok [lit "c.d.e[0]:"] /\
  lines (JObj (a ++ b)) = Ok [lit "a.b: null"; lit "c.d.e[0]:"] /\
  lines (JObj [(lit "k", JObj (a ++ b))]) = Ok [lit "k:"; lit "  a.b: null"; lit "  c.d.e[0]:"] /\
  lines (JObj [(lit "k", JObj a)]) = Ok [lit "k.a.b: null"].
Proof. repeat split; vm_compute; reflexivity. Qed.
(** The dots matter in the second theorem too: a dotted key of an object keeps a chain below it from
    being folded at the root, but not under another key. *)
Example C70_folded_dots :
  let lines := fun v => encode_lines 0 v (Some (EncOpts None None (Some KFSafe) None None)) in
  let l := [(lit "a", JObj [(lit "b", JObj [(lit "c", JPrim PNull)]); (lit "x", JPrim PNull)]); (lit "a.b.c", JPrim PNull)] in
  lines (JObj l) = Ok [lit "a:"; lit "  b:"; lit "    c: null"; lit "  x: null"; lit "a.b.c: null"] /\
  lines (JObj [(lit "k", JObj l)]) = Ok [lit "k:"; lit "  a:"; lit "    b.c: null"; lit "    x: null"; lit "  a.b.c: null"].
Proof. repeat split; vm_compute; reflexivity. Qed.
