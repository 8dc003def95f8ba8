(** What serde_json makes of a JSON text. *)
From Coq Require Import SpecFloat.
From Verif Require Import Chars Floats Json JsonInd NumProof JsonEq Spec JsonText SpecJson JsonNumProof JsonTextProof JsonGrammar SpecSerde Serde
  SerdeProof SerdeNum.

Local Open Scope nat_scope.

Fixpoint jtree_ind' (P : jtree -> Prop) (Hn : P TNull) (Hb : forall b, P (TBool b)) (Hd : forall n, P (TNum n)) (Hs : forall s, P (TStr s))
  (Ha : forall l, Forall P l -> P (TArr l)) (Ho : forall l, Forall (fun kv => P (snd kv)) l -> P (TObj l)) (t : jtree) : P t :=
  match t with
  | TNull => Hn | TBool b => Hb b | TNum n => Hd n | TStr s => Hs s
  | TArr l => Ha l ((fix go l : Forall P l := match l with [] => Forall_nil _ | x :: r => Forall_cons _ (jtree_ind' P Hn Hb Hd Hs Ha Ho x) (go r) end) l)
  | TObj l => Ho l ((fix go l : Forall (fun kv => P (snd kv)) l :=
      match l with [] => Forall_nil _ | x :: r => Forall_cons _ (jtree_ind' P Hn Hb Hd Hs Ha Ho (snd x)) (go r) end) l)
  end.

(** The literals of a document are numerals. *)
Lemma grammar_literals :
  (forall b t, gvalue b t -> Forall (fun n => json_numeral n = true) (literals t)) /\
  (forall b l, gitems b l -> Forall (fun n => json_numeral n = true) (flat_map literals l)) /\
  (forall b l, gmembers b l -> Forall (fun n => json_numeral n = true) (flat_map (fun kv => literals (snd kv)) l)).
Proof.
  apply grammar_ind; try (intros; constructor); cbn [literals flat_map snd]; auto; intros; rewrite ?app_nil_r; auto;
    apply Forall_app; auto.
Qed.
Lemma read_literals s t : read_json s = Some t -> Forall (fun n => json_numeral n = true) (literals t).
Proof. intros H. apply read_json_spec in H as (w1 & b & w2 & _ & _ & H & _). exact (proj1 grammar_literals b t H). Qed.

Lemma value_with_parse t : value_with parse_f64 t = tree_value t.
Proof.
  induction t as [|b|n|s|l IH|l IH] using jtree_ind'; try reflexivity; cbn [value_with tree_value]; f_equal.
  - induction IH as [|x r Hx _ IHr]; [reflexivity|]. rewrite !map_option_cons, Hx, IHr. reflexivity.
  - induction IH as [|x r Hx _ IHr]; [reflexivity|]. rewrite !map_option_cons, Hx, IHr. reflexivity.
Qed.

Lemma map_insert_rel {A B} (R : A -> B -> Prop) a b k v w :
  Forall2 (fun x y : str * _ => fst x = fst y /\ R (snd x) (snd y)) a b -> R v w ->
  Forall2 (fun x y : str * _ => fst x = fst y /\ R (snd x) (snd y)) (map_insert a k v) (map_insert b k w).
Proof.
  intros H Hv. induction H as [|[k1 x] [k2 y] a b [E Hxy] H IH]; cbn [map_insert].
  - constructor; [now split|constructor].
  - cbn [fst snd] in *. subst k2. destruct (str_eqb k1 k); constructor; auto.
Qed.
Lemma map_of_rel {A B} (R : A -> B -> Prop) a b :
  Forall2 (fun x y : str * _ => fst x = fst y /\ R (snd x) (snd y)) a b ->
  Forall2 (fun x y : str * _ => fst x = fst y /\ R (snd x) (snd y)) (map_of a) (map_of b).
Proof.
  unfold map_of. intros H.
  assert (G : Forall2 (fun (x : str * A) (y : str * B) => fst x = fst y /\ R (snd x) (snd y)) [] []) by constructor.
  revert G. generalize (@nil (str * A)) (@nil (str * B)).
  induction H as [|[k1 x] [k2 y] a b [E Hxy] H IH]; intros m m' G; cbn [fold_left]; [exact G|].
  cbn [fst snd] in *. subst k2. apply IH. now apply map_insert_rel.
Qed.

Section Read.
Variable rf : str -> option f64.

Definition outcome (n : nat) (t : jtree) : Prop :=
  match value_with (reading rf) t, (nesting t <=? n) with
  | Some v, true => exists s, serde_of_tree rf (S n) t = Some s /\ norm_json (last_wins v) (from_serde s)
  | _, _ => serde_of_tree rf (S n) t = None
  end.

Lemma max_fold_le l n : (fold_right Nat.max 0 l <=? n) = forallb (fun x => x <=? n) l.
Proof.
  induction l as [|x l IH]; [reflexivity|]. cbn [fold_right forallb]. rewrite <- IH.
  destruct (Nat.leb_spec x n), (Nat.leb_spec (fold_right Nat.max 0 l) n); cbn [andb];
    [apply Nat.leb_le|apply Nat.leb_gt|apply Nat.leb_gt|apply Nat.leb_gt]; lia.
Qed.

Lemma serde_of_tree_outcome t : Forall (fun n => json_numeral n = true) (literals t) -> forall n, outcome n t.
Proof.
  induction t as [|b|lit0|s|l IH|l IH] using jtree_ind'; intros Hl n; unfold outcome.
  - exists SNull. split; [reflexivity|]. constructor. apply np_same. exact I.
  - exists (SBool b). split; [reflexivity|]. constructor. apply np_same. exact I.
  - cbn [value_with nesting]. cbn [literals] in Hl. inversion Hl; subst.
    pose proof (serde_number_value rf lit0 H1) as E. cbn [serde_of_tree Nat.leb]. destruct (serde_number rf lit0) as [m|]; cbn [option_map] in *.
    + rewrite <- E. cbn [option_map]. exists (SNum m). split; [reflexivity|]. cbn [last_wins from_serde]. constructor. apply from_f64_norm.
    + rewrite <- E. reflexivity.
  - exists (SStr s). split; [reflexivity|]. constructor. apply np_same. exact I.
  - cbn [value_with nesting]. cbn [literals] in Hl. cbn [serde_of_tree]. destruct n as [|n].
    { now destruct (option_map _ _). }
    cbn [Nat.leb]. rewrite max_fold_le.
    assert (G : match map_option (value_with (reading rf)) l, forallb (fun x => x <=? n) (map nesting l) with
      | Some vs, true => exists ss, map_option (serde_of_tree rf (S n)) l = Some ss /\ Forall2 (fun v s => norm_json (last_wins v) (from_serde s)) vs ss
      | _, _ => map_option (serde_of_tree rf (S n)) l = None end).
    { induction IH as [|t l Ht _ IHl]; [exists []; split; [reflexivity|constructor]|].
      cbn [flat_map] in Hl. apply Forall_app in Hl as [Ha Hb]. specialize (Ht Ha n). specialize (IHl Hb). unfold outcome in Ht.
      rewrite !map_option_cons. cbn [map forallb].
      destruct (value_with (reading rf) t) as [v|]; [|rewrite Ht; reflexivity].
      destruct (nesting t <=? n).
      - destruct Ht as (s & Es & Hn). rewrite Es. cbn [andb].
        destruct (map_option (value_with (reading rf)) l) as [vs|]; [|now rewrite IHl].
        destruct (forallb _ _); [|now rewrite IHl]. destruct IHl as (ss & -> & H2). exists (s :: ss). split; [reflexivity|]. now constructor.
      - rewrite Ht. cbn [andb]. now destruct (map_option _ l). }
    destruct (map_option (value_with (reading rf)) l) as [vs|]; cbn [option_map]; [|now rewrite G].
    destruct (forallb _ _); [|now rewrite G]. destruct G as (ss & -> & H2). exists (SArr ss). split; [reflexivity|].
    cbn [last_wins from_serde]. constructor. clear - H2. induction H2; constructor; auto.
  - cbn [value_with nesting]. cbn [literals] in Hl. cbn [serde_of_tree]. destruct n as [|n].
    { now destruct (option_map _ _). }
    cbn [Nat.leb]. rewrite max_fold_le.
    set (fv := fun kv : str * jtree => option_map (pair (fst kv)) (value_with (reading rf) (snd kv))).
    set (fs := fun kv : str * jtree => option_map (pair (fst kv)) (serde_of_tree rf (S n) (snd kv))).
    assert (G : match map_option fv l, forallb (fun x => x <=? n) (map (fun kv => nesting (snd kv)) l) with
      | Some vs, true => exists ss, map_option fs l = Some ss /\
          Forall2 (fun v s => fst v = fst s /\ norm_json (last_wins (snd v)) (from_serde (snd s))) vs ss
      | _, _ => map_option fs l = None end).
    { induction IH as [|[k t] l Ht _ IHl]; [exists []; split; [reflexivity|constructor]|].
      cbn [flat_map snd] in *. apply Forall_app in Hl as [Ha Hb]. specialize (Ht Ha n). specialize (IHl Hb). unfold outcome in Ht.
      rewrite !map_option_cons. cbn [map forallb snd].
      change (fv (k, t)) with (option_map (pair k) (value_with (reading rf) t)).
      change (fs (k, t)) with (option_map (pair k) (serde_of_tree rf (S n) t)).
      destruct (value_with (reading rf) t) as [v|]; [|rewrite Ht; reflexivity]. cbn [option_map].
      destruct (nesting t <=? n).
      - destruct Ht as (s & Es & Hn). rewrite Es. cbn [andb option_map].
        destruct (map_option fv l) as [vs|]; [|now rewrite IHl].
        destruct (forallb _ _); [|now rewrite IHl]. destruct IHl as (ss & -> & H2). exists ((k, s) :: ss). split; [reflexivity|]. now constructor.
      - rewrite Ht. cbn [andb]. now destruct (map_option _ l). }
    destruct (map_option fv l) as [vs|]; cbn [option_map]; [|now rewrite G].
    destruct (forallb _ _); [|now rewrite G]. destruct G as (ss & -> & H2). exists (SObj (map_of ss)). split; [reflexivity|].
    cbn [last_wins from_serde]. constructor. rewrite <- map_of_spec, <- (map_of_map from_serde ss). apply map_of_rel.
    clear - H2. induction H2 as [|[k1 x] [k2 y] a b [E H] H2 IH]; constructor; auto.
Qed.

(** The text is accepted exactly if it is JSON of limited nesting whose numbers can all be read. *)
Theorem serde_from_str_spec text :
  match serde_from_str rf text with
  | Some s => exists t v, json_document text t /\ nesting t <= 127 /\ value_with (reading rf) t = Some v /\
                norm_json (last_wins v) (from_serde s)
  | None => forall t, json_document text t -> nesting t <= 127 -> value_with (reading rf) t = None
  end.
Proof.
  unfold serde_from_str. destruct (read_json text) as [t|] eqn:E.
  - pose proof (serde_of_tree_outcome t (read_literals _ _ E) 127) as H. unfold outcome in H.
    apply read_json_spec in E. destruct (value_with (reading rf) t) as [v|] eqn:Ev.
    + destruct (nesting t <=? 127) eqn:En.
      * destruct H as (s & -> & Hs). exists t, v. apply Nat.leb_le in En. auto.
      * rewrite H. intros t' Ht' Hn. rewrite (json_document_fun _ _ _ Ht' E) in Hn. apply Nat.leb_gt in En. lia.
    + rewrite H. intros t' Ht' Hn. now rewrite (json_document_fun _ _ _ Ht' E).
  - intros t Ht. apply read_json_spec in Ht. congruence.
Qed.
End Read.
