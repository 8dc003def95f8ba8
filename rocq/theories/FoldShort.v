(** For C68: the text with folded keys beside the text without. *)
From Verif Require Import Chars Floats Json Lex Spec SpecText.

Local Open Scope nat_scope.

Section Short.
Variable numeral : f64 -> str.
Variable dl : char.
Variable depth depth0 : N.
(** What a character counts for. *)
Variable w : char -> nat.
Hypothesis w_dot : w cDOT <= 1.
Hypothesis w_colon : 1 <= w cCOLON.
Variable indent : nat.

Notation member1 := (member numeral dl true depth).
Notation value_of1 := (value_of numeral dl true depth).
Notation members1 := (members numeral dl true depth).
Notation array1 := (array numeral dl true depth).
Notation items1 := (items numeral dl true depth).
Notation item1 := (item numeral dl true depth).
Notation member0 := (member numeral dl false depth0).
Notation value_of0 := (value_of numeral dl false depth0).
Notation members0 := (members numeral dl false depth0).
Notation array0 := (array numeral dl false depth0).
Notation items0 := (items numeral dl false depth0).
Notation item0 := (item numeral dl false depth0).

Definition weight (s : str) : nat := list_sum (map w s).
(** A line with its line feed; a level of indentation counts for [indent]. *)
Definition line_size (l : dline) : nat := indent * fst l + weight (snd l) + 1.
Definition size (ls : list dline) : nat := list_sum (map line_size ls).

Lemma weight_app s t : weight (s ++ t) = weight s + weight t.
Proof. unfold weight. now rewrite map_app, list_sum_app. Qed.
Lemma weight_cons c t : weight (c :: t) = w c + weight t.
Proof. reflexivity. Qed.
Lemma size_app a b : size (a ++ b) = size a + size b.
Proof. unfold size. now rewrite map_app, list_sum_app. Qed.
Lemma size_cons l b : size (l :: b) = line_size l + size b.
Proof. reflexivity. Qed.

(** The same lines, [n] levels deeper. *)
Definition deeper (n : nat) (ls : list dline) : list dline := map (fun l => (n + fst l, snd l)) ls.
Lemma size_deeper n ls : size ls <= size (deeper n ls).
Proof.
  induction ls as [|[d t] ls IH]; [apply le_n|]. cbn [deeper map]. rewrite !size_cons. fold (deeper n ls).
  assert (line_size (d, t) <= line_size (n + d, t)); [|cbn [fst snd]; lia]. unfold line_size. cbn [fst snd]. rewrite Nat.mul_add_distr_l. lia.
Qed.

Lemma deeper_length n ls : length (deeper n ls) = length ls.
Proof. apply map_length. Qed.

Lemma no_folds c sibs k v ks z : ~ folds false c sibs k v ks z.
Proof. intros (H & _). discriminate. Qed.

(** Without folding the place and the siblings do not matter, and depth only shifts the lines. *)
Lemma shifted n :
  (forall c sibs d kv ls, member0 c sibs d kv ls -> forall c' sibs', member0 c' sibs' (n + d) kv (deeper n ls)) /\
  (forall c d k v ls, value_of0 c d k v ls ->
     exists (kt t : str) (ls' : list dline), key_text k kt /\ ls = (d, kt ++ t) :: ls' /\
       forall c' k' kt', key_text k' kt' -> value_of0 c' (n + d) k' v ((n + d, kt' ++ t) :: deeper n ls')) /\
  (forall c sibs d l ls, members0 c sibs d l ls -> forall c' sibs', members0 c' sibs' (n + d) l (deeper n ls)) /\
  (forall b key d l ls, array0 b key d l ls ->
     exists (kt t : str) (ls' : list dline), (match key with Some k => key_text k kt | None => kt = [] end) /\ ls = (d, kt ++ t) :: ls' /\
       forall key' kt', (match key' with Some k => key_text k kt' | None => kt' = [] end) ->
         array0 b key' (n + d) l ((n + d, kt' ++ t) :: deeper n ls')) /\
  (forall d l ls, items0 d l ls -> items0 (n + d) l (deeper n ls)) /\
  (forall d v ls, item0 d v ls -> item0 (n + d) v (deeper n ls)).
Proof.
  assert (HD : forall key m fields h, header dl key m fields h ->
    exists kt t : str, (match key with Some k => key_text k kt | None => kt = [] end) /\ h = kt ++ t /\
      forall key' kt', (match key' with Some k => key_text k kt' | None => kt' = [] end) -> header dl key' m fields (kt' ++ t)).
  { intros key m fields h H. destruct H as [key m fields kt nt dt ft Hk Hn Hd Hf]. eexists kt, _. split; [exact Hk|].
    split; [reflexivity|]. intros key' kt' Hk'. now constructor. }
  apply text_mutind.
  - intros c sibs d k v ks z ls F. destruct (no_folds _ _ _ _ _ _ F).
  - intros c sibs d k v ls _ _ (kt & t & ls' & K & -> & H) c' sibs'. apply me_plain; [intros; apply no_folds|]. now apply H.
  - intros c d k p kt t K T. exists kt, (cCOLON :: cSPACE :: t), []. split; [exact K|]. split; [reflexivity|]. intros c' k' kt' K'. now constructor.
  - intros c d k l kt ls K _ IH. exists kt, [cCOLON], ls. split; [exact K|]. split; [reflexivity|]. intros c' k' kt' K'. constructor; [exact K'|].
    rewrite plus_n_Sm. apply IH.
  - intros c d k l ls _ (kt & t & ls' & K & -> & H). exists kt, t, ls'. split; [exact K|]. split; [reflexivity|]. intros c' k' kt' K'.
    apply vo_arr. now apply H.
  - intros. constructor.
  - intros c sibs d kv l a b _ IH1 _ IH2 c' sibs'. unfold deeper. rewrite map_app. now constructor.
  - intros b key d h H. destruct (HD _ _ _ _ H) as (kt & t & K & -> & H'). exists kt, t, []. split; [exact K|]. split; [reflexivity|].
    intros key' kt' K'. apply ar_empty. now apply H'.
  - intros b key d p ps h r H R. destruct (HD _ _ _ _ H) as (kt & t & K & -> & H'). exists kt, (t ++ cSPACE :: r), []. split; [exact K|].
    split; [now rewrite <- app_assoc|]. intros key' kt' K'. rewrite app_assoc. apply ar_inline; auto.
  - intros key d l fields rows h ts T H R. destruct (HD _ _ _ _ H) as (kt & t & K & -> & H'). exists kt, t, (map (fun t => (S d, t)) ts).
    split; [exact K|]. split; [reflexivity|]. intros key' kt' K'. unfold deeper. rewrite map_map. cbn [fst snd]. rewrite <- plus_n_Sm. eapply ar_table; eauto.
  - intros b key d l h ls N1 N2 H _ IH. destruct (HD _ _ _ _ H) as (kt & t & K & -> & H'). exists kt, t, ls.
    split; [exact K|]. split; [reflexivity|]. intros key' kt' K'. rewrite <- plus_n_Sm in IH. apply ar_list; auto.
  - intros. constructor.
  - intros d v l a b _ IH1 _ IH2. unfold deeper. rewrite map_app. now constructor.
  - intros d p t T. now constructor.
  - intros d l t ls _ (kt & t' & ls' & K & E & H). cbn in K. subst kt. injection E as -> ->. cbn [deeper map fst snd].
    constructor. now apply (H None []).
  - intros. apply it_none.
  - intros d k v l t a b _ (kt & t' & ls' & K & E & H) _ IH. injection E as -> ->. cbn [deeper map fst snd]. rewrite map_app.
    specialize (H (fresh depth0) k kt K). rewrite <- plus_n_Sm in H, IH. apply it_obj; [exact H|apply IH].
Qed.

Lemma identifier_bare k : identifier k -> bare_key k.
Proof. intros (f & r & -> & Hf & Hr). exists f, r. split; [reflexivity|]. split; [exact Hf|]. revert Hr. apply Forall_impl. tauto. Qed.
Lemma joined_bare ks : forall k, Forall identifier (k :: ks) -> bare_key (join cDOT (k :: ks)).
Proof.
  induction ks as [|k2 ks IH]; intros k H; inversion H as [|? ? Hk Hks]; subst; [now apply identifier_bare|].
  destruct (IH k2 Hks) as (f2 & r2 & E2 & Hf2 & Hr2). destruct (identifier_bare k Hk) as (f & r & -> & Hf & Hr).
  change (join cDOT ((f :: r) :: k2 :: ks)) with ((f :: r) ++ cDOT :: join cDOT (k2 :: ks)). rewrite E2. exists f, (r ++ cDOT :: f2 :: r2).
  split; [reflexivity|]. split; [exact Hf|]. apply Forall_app. split; [exact Hr|]. constructor; [tauto|]. constructor; [tauto|exact Hr2].
Qed.

(** The text of a value under a key, and of the chain of objects that the folded key stands for. *)
Lemma unfolded v ks z : chain v ks z -> forall c d k ls,
  Forall identifier (k :: ks) -> value_of0 c d (join cDOT (k :: ks)) z ls ->
  forall c', exists ls', value_of0 c' d k v ls' /\ length ls' = length ks + length ls /\ size ls + length ks <= size ls'.
Proof.
  induction 1 as [v|k2 v ks z C IH]; intros c d k ls Hi H c'; inversion Hi as [|? ? Hk Hks]; subst.
  - destruct (proj1 (proj2 (shifted 0)) _ _ _ _ _ H) as (kt & t & ls' & K & -> & H'). eexists. split; [apply (H' c' k kt); exact K|]. split.
    + cbn [length]. now rewrite deeper_length.
    + cbn [length]. rewrite !size_cons. rewrite Nat.add_0_r. apply Nat.add_le_mono; [apply le_n|apply size_deeper].
  - destruct (proj1 (proj2 (shifted 1)) _ _ _ _ _ H) as (kt & t & ls' & K & -> & H').
    destruct K as [(_ & ->)|(B & _)]; [|destruct (B (joined_bare _ _ Hi))].
    destruct (IH c' (S d) k2 _ Hks (H' c' _ _ (or_introl (conj (joined_bare _ _ Hks) eq_refl))) (Place (pl_literals c') (pl_path c' ++ [k2]) (pl_budget c')))
      as (ls2 & V & L & Z).
    exists ((d, k ++ [cCOLON]) :: ls2 ++ []). split; [|split].
    + apply vo_obj; [left; split; [now apply identifier_bare|reflexivity]|]. apply ms_cons; [|apply ms_nil]. apply me_plain; [intros; apply no_folds|exact V].
    + rewrite app_nil_r. change (S (length ls2) = S (length ks) + S (length ls')). rewrite L. change (length ((1 + d, join cDOT (k2 :: ks) ++ t) :: deeper 1 ls')) with (S (length (deeper 1 ls'))). rewrite deeper_length. lia.
    + rewrite app_nil_r. change (join cDOT (k :: k2 :: ks)) with (k ++ cDOT :: join cDOT (k2 :: ks)). rewrite !size_cons in *.
      pose proof (size_deeper 1 ls') as Z1. unfold line_size in *. cbn [fst snd] in *. change (1 + d) with (S d) in Z. cbn [length].
      rewrite !weight_app, !weight_cons in *. change (weight []) with 0. rewrite Nat.mul_succ_r in Z. lia.
Qed.

(** Either the same lines, or fewer and at least as many characters saved. *)
Definition shorter (ls ls0 : list dline) : Prop :=
  ls = ls0 \/ length ls < length ls0 /\ size ls + (length ls0 - length ls) <= size ls0.
Lemma shorter_refl ls : shorter ls ls.
Proof. now left. Qed.
Lemma shorter_app a a0 b b0 : shorter a a0 -> shorter b b0 -> shorter (a ++ b) (a0 ++ b0).
Proof. unfold shorter. rewrite !size_app, !app_length. intros [->|[H1 H2]] [->|[H3 H4]]; [now left|right; lia..]. Qed.
Lemma shorter_cons x a b : shorter a b -> shorter (x :: a) (x :: b).
Proof. apply (shorter_app [x] [x]), shorter_refl. Qed.
(** With another beginning of the first line, no matter which. *)
Lemma shorter_first d t a b t' : shorter ((d, t) :: a) ((d, t) :: b) -> forall d', shorter ((d', t') :: a) ((d', t') :: b).
Proof.
  intros [E|[H1 H2]] d'; [injection E as ->; now left|]. right. rewrite !size_cons in *. cbn [length] in *. lia.
Qed.

Lemma shorter_text :
  (forall c sibs d kv ls, member1 c sibs d kv ls -> forall c' sibs', exists ls0, member0 c' sibs' d kv ls0 /\ shorter ls ls0) /\
  (forall c d k v ls, value_of1 c d k v ls -> forall c',
     exists ls0, value_of0 c' d k v ls0 /\ shorter ls ls0 /\ forall x a, ls = x :: a -> exists b, ls0 = x :: b) /\
  (forall c sibs d l ls, members1 c sibs d l ls -> forall c' sibs', exists ls0, members0 c' sibs' d l ls0 /\ shorter ls ls0) /\
  (forall b key d l ls, array1 b key d l ls ->
     exists ls0, array0 b key d l ls0 /\ shorter ls ls0 /\ forall x a, ls = x :: a -> exists b, ls0 = x :: b) /\
  (forall d l ls, items1 d l ls -> exists ls0, items0 d l ls0 /\ shorter ls ls0) /\
  (forall d v ls, item1 d v ls -> exists ls0, item0 d v ls0 /\ shorter ls ls0).
Proof.
  apply text_mutind.
  - intros c sibs d k v ks z ls (_ & Hne & C & _ & _ & Hi & _) _ IH c' sibs'. destruct (IH c') as (ls0 & V & Z & _).
    destruct (unfolded _ _ _ C _ _ _ _ Hi V (Place (pl_literals c') (pl_path c' ++ [k]) (pl_budget c'))) as (ls1 & V1 & L & Z1).
    exists ls1. split; [apply me_plain; [intros; apply no_folds|exact V1]|]. right. destruct ks as [|k2 ks]; [easy|]. cbn [length] in *.
    destruct Z as [->|[Z2 Z3]]; lia.
  - intros c sibs d k v ls _ _ IH c' sibs'. destruct (IH (Place (pl_literals c') (pl_path c' ++ [k]) (pl_budget c'))) as (ls0 & V & Z & _).
    exists ls0. split; [|exact Z]. apply me_plain; [intros; apply no_folds|exact V].
  - intros c d k p kt t K T c'. eexists. split; [apply vo_prim; [exact K|exact T]|]. split; [apply shorter_refl|]. intros x a [= <- <-]. eauto.
  - intros c d k l kt ls K _ IH c'. destruct (IH c' (map fst l)) as (ls0 & M & Z). eexists. split; [eapply vo_obj; eauto|].
    split; [now apply shorter_cons|]. intros x a [= <- <-]. eauto.
  - intros c d k l ls _ (ls0 & A & Z & H) c'. exists ls0. split; [apply vo_arr; exact A|]. now split.
  - intros. eexists. split; [constructor|apply shorter_refl].
  - intros c sibs d kv l a b _ IH1 _ IH2 c' sibs'. destruct (IH1 c' sibs') as (a0 & M1 & Z1), (IH2 c' sibs') as (b0 & M2 & Z2).
    exists (a0 ++ b0). split; [now constructor|now apply shorter_app].
  - intros b key d h H. eexists. split; [apply ar_empty; exact H|]. split; [apply shorter_refl|]. intros x a [= <- <-]. eauto.
  - intros b key d p ps h r H R. eexists. split; [apply ar_inline; [exact H|exact R]|]. split; [apply shorter_refl|]. intros x a [= <- <-]. eauto.
  - intros key d l fields rows h ts T H R. eexists. split; [eapply ar_table; eauto|]. split; [apply shorter_refl|]. intros x a [= <- <-]. eauto.
  - intros b key d l h ls N1 N2 H _ (ls0 & I & Z). eexists. split; [apply ar_list; eauto|]. split; [now apply shorter_cons|].
    intros x a [= <- <-]. eauto.
  - intros. eexists. split; [constructor|apply shorter_refl].
  - intros d v l a b _ (a0 & I1 & Z1) _ (b0 & I2 & Z2). exists (a0 ++ b0). split; [now constructor|now apply shorter_app].
  - intros d p t T. eexists. split; [apply it_prim, T|apply shorter_refl].
  - intros d l t ls _ (ls0 & A & Z & H). destruct (H _ _ eq_refl) as (b & ->). eexists. split; [apply it_arr; exact A|].
    eapply shorter_first; exact Z.
  - intros. eexists. split; [apply it_none|apply shorter_refl].
  - intros d k v l t a b _ IH1 _ IH2. destruct (IH1 (fresh depth0)) as (ls0 & V & Z & H). destruct (H _ _ eq_refl) as (a0 & ->).
    destruct (IH2 (fresh depth0) (map fst l)) as (b0 & M & Z2). eexists. split; [apply it_obj; eauto|].
    apply (shorter_app (_ :: a) (_ :: a0)); [eapply shorter_first; exact Z|exact Z2].
Qed.

Lemma shorter_document v ls ls0 : document numeral dl true depth v ls -> document numeral dl false depth0 v ls0 ->
  (forall doc doc', document numeral dl false depth0 v doc -> document numeral dl false depth0 v doc' -> doc = doc') -> shorter ls ls0.
Proof.
  destruct shorter_text as (_ & _ & Hm & Ha & _). intros D D0 U. destruct D as [p t T|l ls A|l dk ls K M].
  - rewrite (U _ _ D0 (do_prim _ _ _ _ _ _ T)). apply shorter_refl.
  - destruct (Ha _ _ _ _ _ A) as (ls1 & A0 & Z & _). now rewrite (U _ _ D0 (do_arr _ _ _ _ _ _ A0)).
  - destruct (Hm _ _ _ _ _ M (Place dk [] depth0) (map fst l)) as (ls1 & M0 & Z).
    now rewrite (U _ _ D0 (do_obj _ _ _ _ _ _ _ K M0)).
Qed.
End Short.
