(** C51, C52: numbers are read and printed as IEEE 754 and the shortest-decimal rule ask. *)
From Coq Require Import SpecFloat QArith Qabs Lqa.
From Verif Require Import Chars Floats Json Shared EncPrim Normalize Encoders EncodeApi Scanner Parser Decoders DecodeApi
  JsonText NumProof JsonNumProof Lex PrimProof Spec SpecNum JsonEq RoundProof ShortProof NumExt.
From Verif Require SpecText SpecRead ReadProof PropsText PropsRead.

(** * C51: reading *)

(** The text of a number is read as the double nearest to the number written, the even one of two
    equally near, infinity from half way beyond the largest double on; with the sign written, also
    on zero.  Any text of digits, fraction and exponent is read, and no other text. *)
Theorem C51_number_read :
  forall (s : str) (x : f64), parse_f64 s = Some x <-> number_denotes s x.
Proof. exact parse_f64_denotes. Qed.
Print Assumptions C51_number_read.

(** Every written number denotes exactly one double. *)
Theorem C51_one_double :
  (forall (s : str) (neg : bool) (q : Q), writes_number s neg q -> exists x, rounds_to q x /\ signed neg x /\ number_denotes s x) /\
  (forall (s : str) (x y : f64), number_denotes s x -> number_denotes s y -> x = y).
Proof.
  split.
  - intros s neg q H. assert (H' := H). destruct H as (ip & fp & ds & ep & E & -> & Hi & Hf & Hx & Hq).
    set (x := mk_f64 (round_dec neg (digits_value (ip ++ ds)) (E - Z.of_nat (length ds)))). exists x.
    assert (R : rounds_to q x) by (eapply rounds_compat; [symmetry; exact Hq|]; apply round_dec_rounds).
    assert (S : signed neg x).
    { apply signed_sf. unfold x. rewrite mk_f64_sf by apply round_dec_valid. split; [apply round_dec_nan|apply round_dec_sf_sign]. }
    split; [exact R|]. split; [exact S|]. exists neg, q. auto.
  - intros s x y Hx Hy. apply parse_f64_denotes in Hx, Hy. congruence.
Qed.
Print Assumptions C51_one_double.

(** The meaning of a text, C47, with any function that reads numbers as IEEE 754 asks. *)
Theorem C51_decoded_value :
  forall (double : str -> option f64) (text : str) (indent : option nat) (strict : option bool)
         (expand : option expand_paths_mode) (v : json),
    correctly_rounded double -> expand <> Some EPSafe ->
    (try_decode text (Some (DecOpts indent strict expand)) = Ok v <->
     exists tr, SpecRead.reads double (unwrap_or strict true) (unwrap_or indent 2%nat) text tr /\ v = SpecRead.tree_json tr).
Proof.
  intros double text indent strict expand v Hd He. rewrite PropsRead.C47_decoded_value by exact He.
  assert (A : forall s x, SpecRead.numeric parse_f64 s x -> SpecRead.numeric double s x).
  { intros s x (H1 & H2 & H3). split; [exact H1|]. split; [|exact H3]. apply Hd. now apply parse_f64_denotes. }
  assert (B : forall s x, SpecRead.numeric double s x -> SpecRead.numeric parse_f64 s x).
  { intros s x (H1 & H2 & H3). split; [exact H1|]. split; [|exact H3].
    assert (W : exists neg q, writes_number s neg q).
    { destruct H1 as (sg & ip & fp & ep & -> & Hs & Hi & _ & Hf & Hx).
      assert (F : exists ds, fraction_digits fp ds) by (destruct Hf as [->|(ds & -> & Hds)]; [exists []; now left|exists ds; now right]).
      destruct F as (ds & F).
      assert (X : exists E, exponent_value ep E).
      { destruct Hx as [->|(e & sg' & es & -> & H4 & H5 & H6)]; [exists 0%Z; now left|].
        destruct H5 as [->|[->| ->]]; eexists; right; do 3 eexists; (split; [reflexivity|]; split; [exact H4|]; split; [exact H6|]).
        - left. split; [now left|reflexivity].
        - left. split; [now right|reflexivity].
        - right. split; reflexivity. }
      destruct X as (E & X). destruct Hs as [->| ->]; [exists false|exists true]; eexists; exists ip, fp, ds, ep, E;
        (split; [reflexivity|]; split; [exact Hi|]; split; [exact F|]; split; [exact X|]; reflexivity). }
    destruct W as (neg & q & W). destruct (proj1 C51_one_double s neg q W) as (y & _ & _ & Hy). apply Hd in Hy as Hy'. apply parse_f64_denotes in Hy. congruence. }
  split; intros (tr & Hr & E); exists tr; (split; [|exact E]).
  - exact (reads_ext _ _ A B _ _ _ _ Hr).
  - exact (reads_ext _ _ B A _ _ _ _ Hr).
Qed.
Print Assumptions C51_decoded_value.
Theorem C51_such_a_function : correctly_rounded parse_f64.
Proof. intros s x H. now apply parse_f64_denotes. Qed.
Print Assumptions C51_such_a_function.

(** The characters of a number. *)
Lemma number_text_chars u : SpecRead.number_text u ->
  Forall (fun c => Spec.digit c \/ In c [cMINUS; cPLUS; cDOT; cLE; cUE]) u /\ u <> [].
Proof.
  intros (sg & ip & fp & ep & -> & Hs & (Hi & Hd) & _ & Hf & Hx). split.
  - assert (D : forall l, Forall Spec.digit l -> Forall (fun c => Spec.digit c \/ In c [cMINUS; cPLUS; cDOT; cLE; cUE]) l).
    { intros l. apply Forall_impl. auto. }
    repeat (apply Forall_app; split).
    + destruct Hs as [->| ->]; [constructor|]. constructor; [cbn; tauto|constructor].
    + apply D. exact Hd.
    + destruct Hf as [->|(ds & -> & Hds)]; [constructor|]. constructor; [cbn; tauto|]. apply D, Hds.
    + destruct Hx as [->|(e & sg' & es & -> & H4 & H5 & H6)]; [constructor|]. constructor; [destruct H4; subst; cbn; tauto|].
      apply Forall_app. split; [|apply D, H6]. destruct H5 as [->|[->| ->]]; [constructor| |]; (constructor; [cbn; tauto|constructor]).
  - intros E. apply app_eq_nil in E as (_ & E). apply app_eq_nil in E as (E & _). congruence.
Qed.

(** A document that is the text of a number: the number, without the sign of zero; or, if the number
    is beyond the range of doubles, the text itself as a string. *)
Theorem C51_decode_number :
  forall (u : str) (x : f64) (indent : option nat) (strict : option bool) (expand : option expand_paths_mode),
    SpecRead.number_text u -> number_denotes u x -> expand <> Some EPSafe ->
    try_decode u (Some (DecOpts indent strict expand)) =
    Ok (if f64_is_finite x then JPrim (PNum (if f64_is_zero x then f64_zero else x)) else JPrim (PStr u)).
Proof.
  intros u x indent strict expand Hu Hx He. apply parse_f64_denotes in Hx. destruct (number_text_chars u Hu) as (Hc & Hn).
  assert (Hws : Forall (fun c => is_ws c = false) u).
  { eapply Forall_impl; [|exact Hc]. cbn. intros c [H|H]; [|repeat destruct H as [H|H]; try contradiction; subst c; reflexivity].
    unfold Spec.digit in H. assert (D : In c [48;49;50;51;52;53;54;55;56;57]%N) by (cbn; lia).
    repeat destruct D as [D|D]; try contradiction; subst c; reflexivity. }
  assert (Hin : forall c, In c u -> Spec.digit c \/ In c [cMINUS; cPLUS; cDOT; cLE; cUE]) by (now apply Forall_forall).
  assert (Hno : forall c, is_digit c = false -> ~ In c [cMINUS; cPLUS; cDOT; cLE; cUE] -> ~ In c u) by (intros c H1 H2 H; destruct (Hin c H) as [D|D]; [unfold Spec.digit in D; unfold is_digit in H1; lia|tauto]).
  assert (Hnb : ~ Spec.blank u).
  { intros Hb. destruct u as [|c r]; [congruence|]. inversion Hb; inversion Hws; subst. congruence. }
  assert (Ht : SpecRead.trims u u).
  { exists [], []. split; [now rewrite app_nil_r|]. split; [constructor|]. split; [constructor|].
    split; intros c r E; apply (proj1 (Forall_forall _ _) Hws); rewrite E; [now left|apply in_or_app; right; now left]. }
  assert (R : forall p, SpecRead.prim_text parse_f64 u p -> try_decode u (Some (DecOpts indent strict expand)) = Ok (JPrim p)).
  { intros p Hp. apply PropsRead.C47_decoded_value; [exact He|]. exists (SpecRead.TPrim p). split; [|reflexivity].
    exists [u], [SpecRead.TLine 1 0 u], []. split; [discriminate|]. split; [reflexivity|].
    split; [repeat constructor; apply Hno; [reflexivity|cbn; intuition discriminate]|]. split.
    - apply (SpecRead.sc_line _ _ 1 0 u 0 [] [] []).
      + exact Hnb.
      + intros r ->. apply (Hno cSPACE); [reflexivity|cbn; intuition discriminate|now left].
      + repeat split; lia.
      + intros _ r ->. apply (Hno cTAB); [reflexivity|cbn; intuition discriminate|now left].
      + constructor.
    - apply SpecRead.ro_prim; cbn [SpecRead.tl_text].
      + left. intros ((w & r & E & _) & _). apply (Hno cLBRACK); [reflexivity|cbn; intuition discriminate|]. rewrite E. apply in_or_app. right. now left.
      + intros [(b & r & E & _)|(_ & H)].
        * apply (Hno cDQ); [reflexivity|cbn; intuition discriminate|]. rewrite E. now left.
        * revert H. apply Hno; [reflexivity|cbn; intuition discriminate].
      + exact Hp. }
  destruct (f64_is_finite x) eqn:Hf; apply R.
  - apply (SpecRead.pt_number _ _ u x); [exact Ht|repeat split; assumption|].
    unfold SpecRead.same_unless_negative_zero, f64_is_zero. destruct x as [sf V]. cbn [f64_sf].
    destruct sf as [[|]|s| |s m e]; [left; auto|right; split; [discriminate|apply f64_eq; reflexivity]|right; split; [discriminate|reflexivity]..].
  - apply (SpecRead.pt_string _ _ u); auto.
    + intros r ->. apply (Hno cDQ); [reflexivity|cbn; intuition discriminate|now left].
    + intros [E|[E|[E|[]]]]; subst u; discriminate Hx.
    + intros y (_ & Hy & Hfy). congruence.
Qed.
Print Assumptions C51_decode_number.

(** 2^53 + 1 lies half way between two doubles; the even one below is taken, and 2^53 + 3 goes up.
    Half of the smallest double is read as zero, anything more as the smallest double; the largest
    double ends half a step below 2^1024. *)
Example C51_ex_tie :
  try_decode (lit "9007199254740993") None = Ok (JPrim (PNum (mk_f64 (S754_finite false 4503599627370496 1)))) /\
  try_decode (lit "9007199254740995") None = Ok (JPrim (PNum (mk_f64 (S754_finite false 4503599627370498 1)))) /\
  try_decode (lit "-0.1e1") None = Ok (JPrim (PNum (mk_f64 (S754_finite true 4503599627370496 (-52))))) /\
  try_decode (lit "2.4703282292062327e-324") None = Ok (JPrim (PNum f64_zero)) /\
  try_decode (lit "2.4703282292062328e-324") None = Ok (JPrim (PNum (mk_f64 (S754_finite false 1 (-1074))))) /\
  try_decode (lit "1.7976931348623158e308") None = Ok (JPrim (PNum (mk_f64 (S754_finite false 9007199254740991 971)))) /\
  try_decode (lit "1.7976931348623159e308") None = Ok (JPrim (PStr (lit "1.7976931348623159e308"))).
Proof. vm_compute. auto 10. Qed.
(** The hypotheses of [C51_decode_number]. *)
Example C51_ex_denotes :
  SpecRead.number_text (lit "9007199254740993") /\
  number_denotes (lit "9007199254740993") (mk_f64 (S754_finite false 4503599627370496 1)) /\
  writes_number (lit "9007199254740993") false (9007199254740993 # 1).
Proof.
  split.
  - exists [], (lit "9007199254740993"), [], []. split; [reflexivity|]. split; [now left|]. split.
    + split; [discriminate|]. cbn. repeat constructor; unfold Spec.digit; cbn; lia.
    + split; [discriminate|]. split; now left.
  - split; [apply parse_f64_denotes; vm_compute; reflexivity|].
    exists (lit "9007199254740993"), [], [], [], 0%Z. split; [reflexivity|]. split.
    + split; [discriminate|]. cbn. repeat constructor; unfold Spec.digit; cbn; lia.
    + split; [left; auto|]. split; [left; auto|]. reflexivity.
Qed.

(** * C52: printing *)

(** The text of a finite number other than zero is the decimal without exponent of the fewest digits
    that is read as that number; of several the nearest to it; of two as near the larger.  There is
    one such text. *)
Theorem C52_printed :
  forall (x : f64) (t : str), f64_is_finite x = true -> f64_is_zero x = false -> (prints x t <-> t = f64_to_string x).
Proof. exact prints_spec. Qed.
Print Assumptions C52_printed.

(** The text the encoder writes, C46, with any function that prints numbers this way. *)
Theorem C52_encoded_text :
  forall (numeral : f64 -> str) (v n : json) (indent : option nat) (delimiter : option char) (mode : option key_folding_mode)
         (depth : option N) (ls : list str),
    (forall x, f64_is_finite x = true -> f64_is_zero x = false -> prints x (numeral x)) ->
    norm_json v n ->
    (encode_lines 0 v (Some (EncOpts indent delimiter mode depth None)) = Ok ls <->
     exists doc,
       SpecText.document numeral (unwrap_or delimiter cCOMMA)
         (match mode with Some KFSafe => true | _ => false end)
         (unwrap_or depth 18446744073709551615%N) n doc /\
       ls = map (SpecText.shown (unwrap_or indent 2%nat)) doc).
Proof.
  intros numeral v n indent delimiter mode depth ls Hp Hn. rewrite (PropsText.C46_encoded_text v n) by exact Hn.
  assert (A : forall x s m e, f64_sf x = S754_finite s m e -> numeral x = f64_to_string x).
  { intros x s m e E. apply C52_printed; [unfold f64_is_finite; now rewrite E|unfold f64_is_zero; now rewrite E|].
    apply Hp; [unfold f64_is_finite; now rewrite E|unfold f64_is_zero; now rewrite E]. }
  split; intros (doc & Hd & E); exists doc; (split; [|exact E]).
  - refine (document_ext _ _ _ _ _ _ _ _ Hd). intros x s m e Hx. symmetry. eauto.
  - exact (document_ext _ _ A _ _ _ _ _ Hd).
Qed.
Print Assumptions C52_encoded_text.
Theorem C52_such_a_function : forall x, f64_is_finite x = true -> f64_is_zero x = false -> prints x (f64_to_string x).
Proof. intros x H1 H2. now apply C52_printed. Qed.
Print Assumptions C52_such_a_function.

(** A document that is one number. *)
Theorem C52_encode_number :
  forall (x : f64) (t : str) (indent : option nat) (delimiter : option char) (mode : option key_folding_mode) (depth : option N),
    f64_is_finite x = true -> f64_is_zero x = false ->
    (encode_lines 0 (JPrim (PNum x)) (Some (EncOpts indent delimiter mode depth None)) = Ok [t] <-> prints x t).
Proof.
  intros x t indent delimiter mode depth Hf Hz. rewrite C52_printed by assumption. destruct x as [sf V] eqn:Ex.
  unfold f64_is_finite, f64_is_zero in Hf, Hz. cbn [f64_sf] in Hf, Hz. destruct sf as [s|s| |s m e]; try discriminate. rewrite <- Ex.
  assert (Ef : f64_sf x = S754_finite s m e) by (now rewrite Ex).
  rewrite (PropsText.C46_encoded_text _ (JPrim (PNum x))).
  - split.
    + intros (doc & Hd & E). inversion Hd as [p t' Ht| |]; subst p doc. cbn [map] in E. injection E as E.
      unfold SpecText.shown in E. rewrite Nat.mul_0_r in E || idtac. cbn in E. clear Ex Hd Hf Hz. inversion Ht as [| | |y s' Hy|y s' m' e' Hy|y Hy| |]; subst y; [congruence|congruence|unfold f64_is_finite in Hy; rewrite Ef in Hy; discriminate].
    + intros ->. exists [(0%nat, f64_to_string x)]. split; [apply SpecText.do_prim; now apply (SpecText.tk_number _ _ x s m e)|]. cbn [map]. unfold SpecText.shown. cbn [fst snd]. now rewrite ?Nat.mul_0_l, ?Nat.mul_0_r.
  - constructor. apply np_same. split; [unfold f64_is_finite|]; rewrite Ef; [reflexivity|discriminate].
Qed.
Print Assumptions C52_encode_number.

(** In JSON output the digits are as few and the number as near; which of two equally near decimals
    is taken, and when there is an exponent, is up to the JSON library. *)
Theorem C52_json_numbers :
  forall (st : num_style) (x : f64) (n : str), number_text st x = Some n ->
    exists neg q, writes_number n neg q /\ signed neg x /\ rounds_to q x /\ (f64_is_zero x = false -> shortest_nearest x q).
Proof.
  intros st x n. unfold number_text. destruct x as [sf V] eqn:Ex. cbn [f64_sf]. destruct sf as [s|s| |s m e]; try discriminate.
  - intros H. injection H as <-. exists s, 0%Q. split; [|split; [reflexivity|split; [|discriminate]]].
    + exists (lit "0"), (lit ".0"), (lit "0"), [], 0%Z. split; [destruct s; reflexivity|].
      split; [split; [discriminate|repeat constructor; unfold Spec.digit; cbn; lia]|].
      split; [right; split; [reflexivity|split; [discriminate|repeat constructor; unfold Spec.digit; cbn; lia]]|]. split; [left; auto|]. destruct s; reflexivity.
    + apply (rounds_self (F64 (S754_zero s) V)); [reflexivity|]. split; reflexivity.
  - pose proof (nearest_value_by (ns_half_up st) s m e V) as P. cbv zeta in P. destruct (shortest_by (ns_half_up st) m e) as [c p]. destruct P as (P1 & P2). intros H. injection H as <-.
    exists s, ((if s then -1 else 1) * (inject_Z (Z.of_N c) * 10 ^ p))%Q. split; [|split; [reflexivity|split; [exact (proj1 P1)|intros _; exact P1]]].
    destruct (ns_scientific st _).
    + destruct (dec_of_N_spec c) as (Hd & Hv & d & r & E0 & _). unfold scientific. rewrite E0 in *. pose proof (Forall_inv Hd) as Hd1. pose proof (Forall_inv_tail Hd) as Hd2.
      exists [d], (if is_empty r then [] else cDOT :: r), r, (exponent_text st (p + Z.of_nat (length r))), (p + Z.of_nat (length r))%Z.
      split; [reflexivity|]. split; [apply digits_all; split; [discriminate|repeat constructor; exact Hd1]|]. split.
      * destruct r; [left; auto|right; split; [reflexivity|]]. apply digits_all. split; [discriminate|exact Hd2].
      * split.
        -- destruct (exponent_text_ok st (p + Z.of_nat (length r))) as [(E & _)|(sg & es & E & E1 & E2 & E3)]; [discriminate|].
           right. exists cLE, sg, es. split; [exact E|]. split; [now left|]. split; [apply digits_all; auto|exact E3].
        -- change digits_value with dec_val. cbn [app]. rewrite Hv.
           replace (p + Z.of_nat (length r) - Z.of_nat (length r))%Z with p by lia. reflexivity.
    + destruct (format_fixed_plain c p P2) as (ip & fp & ds & E & Hi & Hl & Hf & _ & Hq).
      destruct (Z.ltb_spec p 0) as [Hp|Hp].
      * exists ip, fp, ds, [], 0%Z. rewrite E, app_nil_r. split; [reflexivity|]. split; [exact Hi|]. split; [exact Hf|]. split; [left; auto|].
        rewrite Z.sub_0_l. now rewrite Hq.
      * unfold format_fixed. destruct (Z.ltb_spec p 0); [lia|].
        exists (dec_of_N (c * 10 ^ Z.to_N p)), (lit ".0"), (lit "0"), [], 0%Z. rewrite app_nil_r. split; [reflexivity|].
        split; [apply digits_all; split; [apply dec_of_N_nonempty|apply dec_of_N_digits]|].
        split; [right; split; [reflexivity|apply digits_all; split; [discriminate|repeat constructor]]|]. split; [left; auto|].
        change digits_value with dec_val. rewrite dec_val_app, dec_of_N_val. change (dec_val (lit "0")) with 0%N.
        change (10 ^ N.of_nat (length (lit "0")))%N with 10%N. rewrite N.add_0_r, !N2Z.inj_mul, N2Z.inj_pow, Z2N.id by lia.
        change (Z.of_N 10) with 10%Z. rewrite !inject_Z_mult.
        rewrite (p10_Z p) by lia. assert (T : (inject_Z 10 * 10 ^ (0 - Z.of_nat (length (lit "0"))) == 1)%Q) by reflexivity.
        rewrite <- (Qmult_assoc _ (inject_Z 10)), T. ring.
Qed.
Print Assumptions C52_json_numbers.

(** Seventeen digits where fewer do not do, five of them where five do, no exponent however large or
    small the number is; the shortest is not always the nearest: 9007199254740993 is between two
    doubles, 5e-324 is not the value of the smallest double. *)
Example C52_ex_printed :
  encode_lines 0 (JPrim (PNum (mk_f64 (S754_finite false 5404319552844596 (-54))))) None = Ok [lit "0.30000000000000004"] /\
  encode_lines 0 (JPrim (PNum (mk_f64 (S754_finite true 5404319552844595 (-54))))) None = Ok [lit "-0.3"] /\
  encode_lines 0 (JPrim (PNum (mk_f64 (S754_finite false 4503599627370497 1)))) None = Ok [lit "9007199254740994"] /\
  encode_lines 0 (JPrim (PNum (mk_f64 (S754_finite false 6032057205060441 6)))) None = Ok [lit "386051661123868200"] /\
  prints (mk_f64 (S754_finite false 5404319552844596 (-54))) (lit "0.30000000000000004").
Proof.
  do 4 (split; [vm_compute; reflexivity|]). apply C52_printed; vm_compute; reflexivity.
Qed.
Example C52_ex_json :
  number_text (NumStyle (fun k => (16 <? k)%Z) false 0 Z.odd) (mk_f64 (S754_finite false 6032057205060441 6)) = Some (lit "3.860516611238682e17") /\
  number_text (NumStyle (fun k => (k <? -4)%Z) true 0 Z.odd) (mk_f64 (S754_finite false 1 (-1074))) = Some (lit "5e-324") /\
  shortest_decimal (mk_f64 (S754_finite false 1 (-1074))) (5 * 10 ^ (-324)) /\
  (* half way between ...4604.2 and ...4604.3 *)
  number_text (NumStyle (fun _ => false) true 0 Z.odd) (mk_f64 (S754_finite false 4854984578418417 (-2))) = Some (lit "1213746144604604.2") /\
  encode_lines 0 (JPrim (PNum (mk_f64 (S754_finite false 4854984578418417 (-2))))) None = Ok [lit "1213746144604604.3"].
Proof.
  split; [vm_compute; reflexivity|]. split; [vm_compute; reflexivity|].
  pose proof (printed_value false 1 (-1074) eq_refl) as P. cbv zeta in P. 
  assert (E : shortest 1 (-1074) = (5%N, (-324)%Z)) by (vm_compute; reflexivity). rewrite E in P. destruct P as (P & _).
  assert (X : mk_f64 (S754_finite false 1 (-1074)) = F64 (S754_finite false 1 (-1074)) eq_refl) by (apply f64_eq; reflexivity).
  split; [|split; vm_compute; reflexivity]. rewrite X. eapply shortest_wd; [|exact P]. change (inject_Z (Z.of_N 5)) with 5%Q. ring.
Qed.
