(** C67: how a small change of a value shows in its text. *)
From Verif Require Import Chars Floats Json JsonInd Shared EncPrim Normalize Encoders EncodeApi EncTotal Lex Spec JsonEq ReplaceProof LayEnc TextProof
  SpecEdit SpecText DiffProof PropsText Checkers.

Local Open Scope nat_scope.

Lemma document_diff dl fold depth R v doc : document f64_to_string dl fold depth v doc -> forall w, one_value R v w ->
  exists doc', document f64_to_string dl fold depth w doc' /\ one_line (when dl R (distinct_keys v)) doc doc'.
Proof.
  destruct (text_diff dl fold depth R) as (_ & _ & Hs & Ha & _ & _). intros D w H. destruct D as [p t T|l ls A|l dk ls K M].
  - inversion H; subst. eexists. split; [apply do_prim, token_spec; reflexivity|]. apply line_one. intros _.
    apply token_spec in T as ->. now apply change_token.
  - apply one_arr in H as (m & -> & H). destruct (Ha _ _ _ _ _ A _ H) as (ls' & A' & L). exists ls'. split; [now apply do_arr|].
    eapply when_weaken; [|exact L]. intros Dk. now inversion Dk.
  - apply one_obj in H as (m & -> & H). pose proof H as H0. destruct (Hs _ _ _ _ _ M _ H) as (ls' & M' & L). exists ls'. split.
    + apply member_keys in H. apply do_obj with (dotted_keys := dk).
      * intros k. assert (E : In k (map fst m) = In k (map fst l)) by exact (f_equal (In k) H). exact (eq_ind_r (fun P => In k dk <-> P /\ In cDOT k) (K k) E).
      * exact (eq_ind_r (fun sibs => members f64_to_string dl fold depth _ sibs 0 m ls') M' H).
    + eapply when_weaken; [|exact L]. intros Dk. now inversion Dk.
Qed.

Lemma norm_one (R : prim -> prim -> Prop) v w : one_value R v w ->
  one_value (fun q q' => exists p p', R p p' /\ norm_prim p q /\ norm_prim p' q') (normalize_json_value v) (normalize_json_value w).
Proof.
  induction 1 as [p p' H|a v w b _ IH|a k v w b _ IH].
  - pose proof (normalize_spec (JPrim p)) as N1. pose proof (normalize_spec (JPrim p')) as N2. inversion N1; inversion N2; subst.
    constructor. exists p, p'. auto.
  - cbn [normalize_json_value]. rewrite !map_app. cbn [map]. now constructor.
  - cbn [normalize_json_value]. rewrite !map_app. cbn [map]. now constructor.
Qed.
Lemma norm_token dl p q t : norm_prim p q -> SpecText.token f64_to_string dl q t -> SpecText.token f64_to_string dl p t.
Proof.
  intros N T. destruct N as [p _|x F|x Z]; [exact T| |].
  - inversion T; subst. now apply tk_other.
  - apply token_spec in T as ->. change (SpecText.token f64_to_string dl (PNum x) (lit "0")). eapply tk_zero; eauto.
Qed.

(** Replacing one primitive value [p] by [p'], anywhere in a value, changes one line of its text and
    no other, with any options.  If no object has a key twice, the line has the token of [p'] where
    the token of [p] was. *)
Theorem C67_one_line :
  forall (p p' : prim) (v v' : json) (indent : option nat) (delimiter : option char) (mode : option key_folding_mode)
         (depth : option N) (ls : list str),
    one_value (fun a b => a = p /\ b = p') v v' ->
    encode_lines 0 v (Some (EncOpts indent delimiter mode depth None)) = Ok ls ->
    exists before s s' after,
      ls = before ++ s :: after /\
      encode_lines 0 v' (Some (EncOpts indent delimiter mode depth None)) = Ok (before ++ s' :: after) /\
      (distinct_keys v -> exists x t t' y, s = x ++ t ++ y /\ s' = x ++ t' ++ y /\
         SpecText.token f64_to_string (unwrap_or delimiter cCOMMA) p t /\
         SpecText.token f64_to_string (unwrap_or delimiter cCOMMA) p' t').
Proof.
  intros p p' v v' indent delimiter mode depth ls H E.
  apply (C46_encoded_text v (normalize_json_value v) indent delimiter mode depth ls (normalize_spec v)) in E as (doc & D & ->).
  destruct (document_diff _ _ _ _ _ _ D _ (norm_one _ _ _ H)) as (doc' & D' & a & d & s & s' & b & -> & -> & C).
  exists (map (shown (unwrap_or indent 2)) a), (shown (unwrap_or indent 2) (d, s)), (shown (unwrap_or indent 2) (d, s')), (map (shown (unwrap_or indent 2)) b).
  split; [now rewrite map_app|]. split.
  - apply (C46_encoded_text v' (normalize_json_value v') indent delimiter mode depth _ (normalize_spec v')). eexists. split; [exact D'|]. now rewrite map_app.
  - intros Dk. destruct (C (norm_distinct _ _ (normalize_spec v) Dk)) as (x & t & t' & y & q & q' & -> & -> & (p0 & p1 & (-> & ->) & N1 & N2) & T1 & T2).
    exists (repeat cSPACE (unwrap_or indent 2 * d) ++ x), t, t', y. unfold shown. cbn [fst snd]. rewrite <- !app_assoc.
    split; [reflexivity|]. split; [reflexivity|]. split; eapply norm_token; eauto.
Qed.
Print Assumptions C67_one_line.

(** In a table below a folded key. *)
Example C67_case :
  let old := JObj [(lit "a", JObj [(lit "t", JArr [JObj [(lit "x", JPrim (PBool true)); (lit "y", JPrim (PStr (lit "p")))];
                                                   JObj [(lit "y", JPrim PNull); (lit "x", JPrim (PBool false))]])])] in
  let new := JObj [(lit "a", JObj [(lit "t", JArr [JObj [(lit "x", JPrim (PBool true)); (lit "y", JPrim (PStr (lit "p")))];
                                                   JObj [(lit "y", JPrim (PStr (lit "q,r"))); (lit "x", JPrim (PBool false))]])])] in
  one_value (fun a b => a = PNull /\ b = PStr (lit "q,r")) old new /\ distinct_keys old /\
  encode_lines 0 old (Some (EncOpts None None (Some KFSafe) None None)) = Ok [lit "a.t[2]{x,y}:"; lit "  true,p"; lit "  false,null"] /\
  encode_lines 0 new (Some (EncOpts None None (Some KFSafe) None None)) = Ok [lit "a.t[2]{x,y}:"; lit "  true,p"; lit "  false,""q,r"""].
Proof.
  split; [|split; [now apply distinctb_ok|split; vm_compute; reflexivity]].
  apply (ov_member _ []), (ov_member _ []), (ov_item _ [_] _ _ []), (ov_member _ [] _ _ _ [_]). now constructor.
Qed.
(** With a key twice in a row of a table, both cells show the first value. *)
Example C67_repeated_key :
  encode_lines 0 (JArr [JObj [(lit "a", JPrim (PBool true)); (lit "a", JPrim PNull)]]) None = Ok [lit "[1]{a,a}:"; lit "  true,true"] /\
  encode_lines 0 (JArr [JObj [(lit "a", JPrim (PBool false)); (lit "a", JPrim PNull)]]) None = Ok [lit "[1]{a,a}:"; lit "  false,false"].
Proof. split; vm_compute; reflexivity. Qed.
