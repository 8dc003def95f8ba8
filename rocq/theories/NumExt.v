(** The specifications of texts depend on the functions for numbers only through the numbers they
    are applied to. *)
From Verif Require Import Chars Floats Json Spec.
From Verif Require SpecText SpecRead.

Section Read.
Variables d1 d2 : str -> option f64.
Hypothesis Same : forall s x, SpecRead.numeric d1 s x -> SpecRead.numeric d2 s x.
Hypothesis Same' : forall s x, SpecRead.numeric d2 s x -> SpecRead.numeric d1 s x.

Lemma prim_ext t p : SpecRead.prim_text d1 t p -> SpecRead.prim_text d2 t p.
Proof.
  intros H. destruct H as [Hb|u s Hu Hn|Hn|Hn|Hn|u x y Hu Hn Hs|u Hu H1 H2 H3 H4].
  - now apply SpecRead.pt_empty.
  - now apply (SpecRead.pt_quoted _ _ u).
  - now apply SpecRead.pt_true.
  - now apply SpecRead.pt_false.
  - now apply SpecRead.pt_null.
  - apply (SpecRead.pt_number _ _ u x); auto.
  - apply (SpecRead.pt_string _ _ u); auto. intros x Hx. exact (H4 x (Same' _ _ Hx)).
Qed.
Lemma prims_ext dl s ps : SpecRead.prims_text d1 dl s ps -> SpecRead.prims_text d2 dl s ps.
Proof.
  intros (ts & Hc & H). exists ts. split; [exact Hc|]. clear Hc. induction H; constructor; auto. now apply prim_ext.
Qed.
Lemma rows_ext strict dl fs d n ls vs rest : SpecRead.rows d1 strict dl fs d n ls vs rest -> SpecRead.rows d2 strict dl fs d n ls vs rest.
Proof. induction 1; econstructor; eauto using prims_ext. Qed.
Lemma read_ext strict blanks :
  (forall d t ls m rest, SpecRead.member d1 strict blanks d t ls m rest -> SpecRead.member d2 strict blanks d t ls m rest) /\
  (forall stop d ls ms rest, SpecRead.members d1 strict blanks stop d ls ms rest -> SpecRead.members d2 strict blanks stop d ls ms rest) /\
  (forall d h tail ls v rest, SpecRead.array d1 strict blanks d h tail ls v rest -> SpecRead.array d2 strict blanks d h tail ls v rest) /\
  (forall d n ls vs rest, SpecRead.items d1 strict blanks d n ls vs rest -> SpecRead.items d2 strict blanks d n ls vs rest) /\
  (forall d t ls v rest, SpecRead.item d1 strict blanks d t ls v rest -> SpecRead.item d2 strict blanks d t ls v rest).
Proof.
  apply SpecRead.read_mutind; intros; try (econstructor; eauto using prim_ext, prims_ext, rows_ext; fail).
Qed.
Lemma root_ext strict blanks ls v : SpecRead.root d1 strict blanks ls v -> SpecRead.root d2 strict blanks ls v.
Proof.
  destruct (read_ext strict blanks) as (A & B & C & _). intros H. inversion H; subst; try (econstructor; eauto using prim_ext; fail).
Qed.
Lemma reads_ext strict size text v : SpecRead.reads d1 strict size text v -> SpecRead.reads d2 strict size text v.
Proof. intros (raws & ls & bs & H1 & H2 & H3 & H4 & H5). exists raws, ls, bs. repeat (split; [assumption|]). now apply root_ext. Qed.
End Read.

Section Text.
Variables n1 n2 : f64 -> str.
Hypothesis Same : forall x s m e, f64_sf x = SpecFloat.S754_finite s m e -> n1 x = n2 x.

Lemma token_ext dl p t : SpecText.token n1 dl p t -> SpecText.token n2 dl p t.
Proof.
  intros H. inversion H; subst; try (econstructor; eauto; fail).
  erewrite Same by eauto. eapply SpecText.tk_number; eauto.
Qed.
Lemma row_ext dl ps t : SpecText.row n1 dl ps t -> SpecText.row n2 dl ps t.
Proof.
  intros (ts & H & Hs). exists ts. split; [|exact Hs]. clear Hs. induction H; constructor; auto. now apply token_ext.
Qed.
Lemma text_ext dl fold depth :
  (forall c sibs d kv ls, SpecText.member n1 dl fold depth c sibs d kv ls -> SpecText.member n2 dl fold depth c sibs d kv ls) /\
  (forall c d k v ls, SpecText.value_of n1 dl fold depth c d k v ls -> SpecText.value_of n2 dl fold depth c d k v ls) /\
  (forall c sibs d l ls, SpecText.members n1 dl fold depth c sibs d l ls -> SpecText.members n2 dl fold depth c sibs d l ls) /\
  (forall t key d l ls, SpecText.array n1 dl fold depth t key d l ls -> SpecText.array n2 dl fold depth t key d l ls) /\
  (forall d l ls, SpecText.items n1 dl fold depth d l ls -> SpecText.items n2 dl fold depth d l ls) /\
  (forall d v ls, SpecText.item n1 dl fold depth d v ls -> SpecText.item n2 dl fold depth d v ls).
Proof.
  apply SpecText.text_mutind; intros; try (econstructor; eauto using token_ext, row_ext; fail).
  - eapply SpecText.ar_table; eauto. clear H H0. induction H1; constructor; eauto using row_ext.
Qed.
Lemma document_ext dl fold depth v ls : SpecText.document n1 dl fold depth v ls -> SpecText.document n2 dl fold depth v ls.
Proof.
  destruct (text_ext dl fold depth) as (A & B & C & D & _). intros H. inversion H; subst; try (econstructor; eauto using token_ext; fail).
Qed.
End Text.
