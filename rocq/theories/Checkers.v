(** Boolean checks that imply the hypotheses of the theorems; used by the examples. *)
From Verif Require Import Chars Floats Json JsonInd JsonEq Shared Normalize Encoders Lex NumProof Spec Layout LayEnc.
From Coq Require Import Permutation.

Local Open Scope nat_scope.

Fixpoint distinctb (v : json) : bool :=
  match v with
  | JPrim _ => true
  | JArr l => forallb distinctb l
  | JObj l => forallb (fun kv => distinctb (snd kv)) l &&
      (fix nodup (ks : list str) := match ks with [] => true
         | k :: r => negb (existsb (str_eqb k) r) && nodup r end) (map fst l)
  end.

Lemma distinctb_ok v : distinctb v = true -> distinct_keys v.
Proof.
  induction v using json_ind'; cbn [distinctb]; intros E; constructor.
  - rewrite forallb_forall in E. rewrite Forall_forall in *. auto.
  - apply andb_prop in E as [_ E]. induction (map fst l) as [|k r IH]; constructor.
    + apply andb_prop in E as [E _]. intros Hi. apply negb_true_iff in E.
      assert (X : existsb (str_eqb k) r = true) by (apply existsb_exists; exists k; split; [auto|apply str_eqb_refl]).
      congruence.
    + apply andb_prop in E as [_ E]. auto.
  - apply andb_prop in E as [E _]. rewrite forallb_forall in E. rewrite Forall_forall in *. auto.
Qed.

Fixpoint canonicalb (v : json) : bool :=
  match v with
  | JPrim (PNum x) => f64_is_finite x && negb (match f64_sf x with SpecFloat.S754_zero true => true | _ => false end)
  | JPrim _ => true
  | JArr l => forallb canonicalb l
  | JObj l => forallb (fun kv => canonicalb (snd kv)) l
  end.

Lemma canonicalb_ok v : canonicalb v = true -> canonical v.
Proof.
  induction v using json_ind'; cbn [canonicalb]; intros E; constructor.
  - destruct p; cbn; auto. apply andb_prop in E as [E1 E2]. split; auto. intros X. now rewrite X in E2.
  - rewrite forallb_forall in E. rewrite Forall_forall in *. auto.
  - rewrite forallb_forall in E. rewrite Forall_forall in *. auto.
Qed.

(** A key that is not written bare, or a string without '['. *)
Definition member_fine (k s : str) : bool :=
  negb (contains cLBRACK s) || negb (contains cCOLON s) || contains cSPACE k.

Definition is_flat_object (v : json) : bool :=
  match v with JObj l => forallb (fun kv => is_json_primitive (snd kv)) l | _ => false end.
Lemma tabular_flat l fields : tabular l fields -> forallb is_flat_object l = true.
Proof.
  intros (_ & _ & H). apply forallb_forall. intros v Hv. rewrite Forall_forall in H.
  destruct (H v Hv) as (es & -> & _ & A). cbn. apply forallb_forall. intros kv Hk. rewrite Forall_forall in A.
  destruct (A kv Hk) as (p & ->). reflexivity.
Qed.

(** Whether the array is a table, when its objects have distinct keys. *)
Definition table_check (l : list json) : bool :=
  match extract_tabular_header l with
  | Some fields => forallb (fun f => negb (contains cRBRACE f)) fields
  | None => false
  end.

Fixpoint portableb (t : bool) (v : json) : bool :=
  match v with
  | JPrim _ => true
  | JArr l => N.leb (N.of_nat (length l)) 100000000 &&
      (if t && match extract_tabular_header l with Some _ => true | None => false end then table_check l
       else forallb (portableb false) l)
  | JObj l =>
      forallb (fun kv => match snd kv with JPrim (PStr s) => member_fine (fst kv) s | _ => true end) l &&
      forallb (fun kv => portableb true (snd kv)) l
  end.

Lemma no_bracket_not_header s : contains cLBRACK s = false -> ~ header_like s.
Proof.
  intros H (a & n & b & -> & _). apply contains_not_In in H. apply H, in_app_iff. right. now left.
Qed.
Lemma no_colon_not_header s : contains cCOLON s = false -> ~ header_like s.
Proof.
  intros H (a & n & b & -> & _ & _ & Hc). apply contains_not_In in H. apply H.
  apply in_app_iff. right. right. apply in_app_iff. right. right.
  destruct Hc as [(m & t & -> & _)|[(m & f & t & -> & _ & _ & Hc)|(m & f & -> & _ & _ & Hc)]];
    rewrite ?in_app_iff; cbn [In]; rewrite ?in_app_iff; cbn [In]; tauto.
Qed.
Lemma space_not_bare k : contains cSPACE k = true -> ~ bare_key k.
Proof.
  intros H (c & r & -> & Hc & Hr). apply contains_In in H. destruct H as [E|H].
  - subst c. destruct Hc as [[Hc|Hc]|Hc]; [lia|lia|discriminate].
  - rewrite Forall_forall in Hr. apply Hr in H. destruct H as [[H|H]|[H|[H|H]]]; try discriminate; unfold digit in H; lia.
Qed.

Lemma table_ok l fields : Forall distinct_keys l -> extract_tabular_header l = Some fields -> tabular l fields.
Proof.
  intros Hd E. apply extract_header in E as (first & r & -> & Hf & Hn & Ht). now apply rows_tabular.
Qed.

Lemma portableb_ok v : forall t, distinct_keys v -> portableb t v = true -> portable_at t v.
Proof.
  induction v using json_ind'; cbn [portableb]; intros t Hd E; [constructor| |].
  - apply andb_prop in E as [El E]. apply N.leb_le in El. inversion Hd as [|? Hd'|]; subst.
    destruct (t && _) eqn:Et.
    + apply andb_prop in Et as [-> Et]. unfold table_check in E.
      destruct (extract_tabular_header l) as [fields|] eqn:Eh; [|discriminate].
      apply (po_table l fields); auto; [now apply table_ok|].
      apply Forall_forall. intros f Hf. rewrite forallb_forall in E. apply E, negb_true_iff in Hf.
      now apply contains_not_In in Hf.
    + apply po_list; auto.
      * intros -> fields T. apply tabular_rows in T; auto. now rewrite T in Et.
      * rewrite forallb_forall in E. rewrite Forall_forall in *. auto.
  - apply andb_prop in E as [E1 E2]. inversion Hd as [| |? ? Hd']; subst. rewrite forallb_forall in E1, E2.
    constructor.
    + apply Forall_forall. intros kv Hk s Es Hb. specialize (E1 kv Hk). rewrite Es in E1. unfold member_fine in E1.
      apply orb_prop in E1 as [E1|E1]; [|now apply space_not_bare in E1].
      apply orb_prop in E1 as [E1|E1]; apply negb_true_iff in E1; [now apply no_bracket_not_header|now apply no_colon_not_header].
    + rewrite Forall_forall in *. auto.
Qed.

Fixpoint guardedb (t : bool) (v : json) : bool :=
  match v with
  | JPrim _ => true
  | JArr l => N.leb (N.of_nat (length l)) 100000000 &&
      (if t && match extract_tabular_header l with Some _ => true | None => false end then table_check l
       else forallb (guardedb false) l)
  | JObj l =>
      forallb (fun kv => match snd kv with JPrim (PStr s) => contains cSPACE (fst kv) | _ => true end) l &&
      forallb (fun kv => guardedb true (snd kv)) l
  end.
Lemma guardedb_ok v : forall t, distinct_keys v -> guardedb t v = true -> guarded_at t v.
Proof.
  induction v using json_ind'; cbn [guardedb]; intros t Hd E; [constructor| |].
  - apply andb_prop in E as [El E]. apply N.leb_le in El. inversion Hd as [|? Hd'|]; subst.
    destruct (t && _) eqn:Et.
    + apply andb_prop in Et as [-> Et]. unfold table_check in E.
      destruct (extract_tabular_header l) as [fields|] eqn:Eh; [|discriminate].
      apply (gu_table l fields); auto; [now apply table_ok|].
      apply Forall_forall. intros f Hf. rewrite forallb_forall in E. apply E, negb_true_iff in Hf.
      now apply contains_not_In in Hf.
    + apply gu_list; auto.
      * intros -> fields T. apply tabular_rows in T; auto. now rewrite T in Et.
      * rewrite forallb_forall in E. rewrite Forall_forall in *. auto.
  - apply andb_prop in E as [E1 E2]. inversion Hd as [| |? ? Hd']; subst. rewrite forallb_forall in E1, E2.
    constructor.
    + apply Forall_forall. intros kv Hk (s & Es). specialize (E1 kv Hk). rewrite Es in E1. now apply space_not_bare.
    + rewrite Forall_forall in *. auto.
Qed.

Definition keys_of (v : json) : list str := match v with JObj l => map fst l | _ => [] end.
Fixpoint strs_eqb (a b : list str) : bool :=
  match a, b with [], [] => true | x :: a, y :: b => str_eqb x y && strs_eqb a b | _, _ => false end.
Lemma strs_eqb_ok a b : strs_eqb a b = true -> a = b.
Proof.
  revert b. induction a as [|x a IH]; intros [|y b] E; cbn in E; try discriminate; auto.
  apply andb_prop in E as [E1 E2]. apply str_eqb_eq in E1 as ->. f_equal. auto.
Qed.
Fixpoint uniformb (v : json) : bool :=
  match v with
  | JPrim _ => true
  | JArr l => forallb uniformb l &&
      match extract_tabular_header l with
      | Some fields => forallb (fun r => match r with JObj es => strs_eqb (map fst es) fields | _ => false end) l
      | None => true
      end
  | JObj l => forallb (fun kv => uniformb (snd kv)) l
  end.
Lemma uniformb_ok v : distinct_keys v -> uniformb v = true -> uniform v.
Proof.
  induction v using json_ind'; cbn [uniformb]; intros Hd E; constructor; inversion Hd; subst.
  - intros fields T. apply andb_prop in E as [_ E]. apply tabular_rows in T; auto. rewrite T in E.
    apply Forall_forall. intros v Hv. rewrite forallb_forall in E. specialize (E v Hv).
    destruct v as [p|a|es]; try discriminate. apply strs_eqb_ok in E. eauto.
  - apply andb_prop in E as [E _]. rewrite forallb_forall in E. rewrite Forall_forall in *. auto.
  - rewrite forallb_forall in E. rewrite Forall_forall in *. auto.
Qed.
