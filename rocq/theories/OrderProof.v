(** What is read back is the value itself exactly if the rows of its tables are in order. *)
From Verif Require Import Chars Floats Json JsonInd JsonEq Shared EncPrim Normalize Folding Encoders EncodeApi
  Lex NumProof Spec Layout LayEnc WrittenProps SpecRound Checkers.
From Coq Require Import Permutation.

Local Open Scope nat_scope.

Lemma tabular_fields l f g : tabular l f -> tabular l g -> f = g.
Proof. intros (_ & (a & r & E & <-) & _) (_ & (a' & r' & E' & <-) & _). congruence. Qed.

Lemma rows_same fields l rows : NoDup fields -> Forall distinct_keys l -> Forall2 (row_of_fields fields) l rows ->
  (map (row_json fields) rows = l <-> Forall (fun v => exists es, v = JObj es /\ map fst es = fields) l).
Proof.
  intros Hn Hd H. induction H as [|v c l rows Hr _ IH]; [split; constructor|].
  inversion Hd as [|? ? Hv Hd']; subst. specialize (IH Hd').
  destruct (row_field_perm _ _ _ Hn Hr) as (es & es' & -> & Er & P & K). cbn [map]. rewrite Er. split.
  - intros E. injection E as -> E. constructor; [eauto|now apply IH].
  - intros F. inversion F as [|? ? (es0 & E0 & K0) F']; subst. injection E0 as <-. f_equal; [|now apply IH].
    f_equal. inversion Hv; subst. now apply perm_same_keys.
Qed.

Lemma written_same :
  (forall t v w, written false t v w -> distinct_keys v -> (w = v <-> ordered_at t v)) /\
  (forall l m, written_items false l m -> Forall distinct_keys l -> (m = l <-> Forall (ordered_at false) l)) /\
  (forall sibs l m, written_fields false sibs l m -> Forall (fun kv => distinct_keys (snd kv)) l ->
     (m = l <-> Forall (fun kv => ordered_at true (snd kv)) l)) /\
  (forall sibs a b, written_field false sibs a b -> distinct_keys (snd a) -> (b = a <-> ordered_at true (snd a))).
Proof.
  apply written_mutind.
  - intros. split; [constructor|reflexivity].
  - intros t l m Ht _ IH Hd. inversion Hd as [|? D|]; subst. specialize (IH D). split.
    + intros E. injection E as ->. apply or_list; [|now apply IH]. intros E fields T.
      apply tabular_rows in T; auto. rewrite (Ht E) in T. discriminate.
    + intros Ho. f_equal. apply IH. inversion Ho as [|? ? _ Hi|? fields T Hi|]; subst; auto.
      apply tabular_rows in T; auto. rewrite Ht in T by auto. discriminate.
  - intros first r fields rows Hk Hne Hx HF Hd. inversion Hd as [|? D|]; subst.
    assert (Hnf : NoDup (map fst first)) by (inversion D as [|? ? Hf]; subst; now inversion Hf).
    assert (T : tabular (JObj first :: r) (map fst first)) by now apply table_ok.
    pose proof (rows_same _ _ _ Hnf D HF) as HS. split.
    + intros E. injection E as E. apply (or_table _ _ T). now apply HS.
    + intros Ho. f_equal. apply HS. inversion Ho as [|? ? Hf _|? fields T' Hi|]; subst.
      * now apply Hf in T.
      * now rewrite (tabular_fields _ _ _ T T').
  - intros t l m _ IH Hd. inversion Hd as [| |? _ D]; subst. specialize (IH D). split.
    + intros E. injection E as ->. constructor. now apply IH.
    + intros Ho. f_equal. apply IH. now inversion Ho.
  - intros k v l w m _ IH1 _ IH2 Hd. inversion Hd as [| |? _ D]; subst. inversion D as [|? ? D1 D2]; subst. cbn [snd] in *.
    specialize (IH1 D1). specialize (IH2 D2). split.
    + intros E. injection E as -> ->. constructor. constructor; [now apply IH1|now apply IH2].
    + intros Ho. inversion Ho as [| | |? ? Hi]; subst. inversion Hi; subst. f_equal. f_equal; [f_equal; now apply IH1|now apply IH2].
  - split; [constructor|reflexivity].
  - intros v w l m _ IH1 _ IH2 D. inversion D; subst. split.
    + intros E. injection E as -> ->. constructor; [now apply IH1|now apply IH2].
    + intros Ho. inversion Ho; subst. f_equal; [now apply IH1|now apply IH2].
  - split; [constructor|reflexivity].
  - intros sibs a b l m _ IH1 _ IH2 D. inversion D; subst. split.
    + intros E. injection E as -> ->. constructor; [now apply IH1|now apply IH2].
    + intros Ho. inversion Ho; subst. f_equal; [now apply IH1|now apply IH2].
  - intros sibs k v w _ IH D. cbn [snd] in *. split.
    + intros E. injection E as ->. now apply IH.
    + intros Ho. f_equal. now apply IH.
  - discriminate.
Qed.

Lemma norm_ordered v : forall t w, norm_json v w -> (ordered_at t v <-> ordered_at t w).
Proof.
  induction v using json_ind'; intros t w Hn; inversion Hn as [|? l' F|? l' F]; subst; [split; constructor| |].
  - assert (HK : forall fields, Forall (fun v => exists es, v = JObj es /\ map fst es = fields) l <->
        Forall (fun v => exists es, v = JObj es /\ map fst es = fields) l').
    { intros fields. clear - F. induction F as [|a b l m R F IH]; [split; constructor|].
      split; intros G; inversion G as [|? ? (es & E & K) G']; subst; constructor; try now apply IH.
      - inversion R as [| |? es' Fe]; subst. exists es'. split; auto. now apply norm_keys.
      - inversion R as [| |es0 ? Fe]; subst. exists es0. split; auto. symmetry. now apply norm_keys. }
    assert (HT : forall fields, tabular l fields <-> tabular l' fields).
    { intros fields. split; [eapply norm_tabular_iff|eapply norm_tabular]; eauto. }
    assert (HI : Forall (ordered_at false) l <-> Forall (ordered_at false) l').
    { clear - F H. induction F as [|a b l m R F IH]; [split; constructor|]. inversion H as [|? ? Ha Hl]; subst.
      specialize (Ha false b R). specialize (IH Hl).
      split; intros G; inversion G; subst; constructor; tauto. }
    split; intros Ho; inversion Ho as [|? ? Hf Hi|? fields T Hi|]; subst.
    + apply or_list; [|tauto]. intros E fields T. apply (Hf E fields). now apply HT.
    + apply (or_table _ fields); [now apply HT|now apply HK].
    + apply or_list; [|tauto]. intros E fields T. apply (Hf E fields). now apply HT.
    + apply (or_table _ fields); [now apply HT|now apply HK].
  - assert (HI : Forall (fun kv => ordered_at true (snd kv)) l <-> Forall (fun kv => ordered_at true (snd kv)) l').
    { clear - F H. induction F as [|a b l m [_ R] F IH]; [split; constructor|]. inversion H as [|? ? Ha Hl]; subst.
      specialize (Ha true (snd b) R). specialize (IH Hl).
      split; intros G; inversion G; subst; constructor; tauto. }
    split; intros Ho; inversion Ho; subst; constructor; tauto.
Qed.
