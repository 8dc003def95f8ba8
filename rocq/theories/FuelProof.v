(** The recursion fuel of the decoder model plays no part: more of it changes nothing. *)
From Verif Require Import Chars Floats Json Shared Scanner Parser DecValidation Decoders.

Local Open Scope nat_scope.

(** The first run has no fuel left, or the second gives the same. *)
Definition more {A} (r r' : result A) : Prop := r = Err EFuel \/ r' = r.
Lemma more_refl {A} (r : result A) : more r r.
Proof. now right. Qed.
Lemma more_bind {A B} (r r' : result A) (f f' : A -> result B) :
  more r r' -> (forall a, more (f a) (f' a)) -> more (bind r f) (bind r' f').
Proof. intros [->| ->] K; [now left|]. destruct r; cbn; [apply K|now right]. Qed.

Ltac step :=
  match goal with
  | |- more (Err EFuel) _ => now left
  | |- more ?x ?x => apply more_refl
  | H : forall _, _ |- more _ _ => apply H
  | |- more (bind _ _) (bind _ _) => apply more_bind; [|intros]
  | |- more (let (_, _) := ?p in _) _ => destruct p
  | |- more (if ?b then _ else _) _ => destruct b
  | |- more (match ?p with _ => _ end) _ => destruct p
  end.

Lemma fuel_more cx : forall fuel fuel', fuel <= fuel' ->
  (forall a c d, more (decode_key_value fuel a c d cx) (decode_key_value fuel' a c d cx)) /\
  (forall c d cd, more (decode_object_fields fuel c d cd cx) (decode_object_fields fuel' c d cd cx)) /\
  (forall h iv c d, more (decode_array_from_header fuel h iv c d cx) (decode_array_from_header fuel' h iv c d cx)) /\
  (forall c d len n g, more (decode_list_items fuel c d len n g cx) (decode_list_items fuel' c d len n g cx)) /\
  (forall c d, more (decode_list_item fuel c d cx) (decode_list_item fuel' c d cx)) /\
  (forall c d, more (decode_follow fuel c d cx) (decode_follow fuel' c d cx)).
Proof.
  induction fuel as [|fuel IH]; intros fuel' L; [repeat split; intros; now left|].
  destruct fuel' as [|fuel']; [lia|]. destruct (IH fuel' ltac:(lia)) as (Ikv & Iof & Iar & Iit & Ii & Ifo). clear IH L.
  repeat split; intros;
    cbn [decode_key_value decode_object_fields decode_array_from_header decode_list_items decode_list_item decode_follow];
    cbv zeta; repeat step.
Qed.
Lemma root_more cx : forall fuel fuel', fuel <= fuel' ->
  forall c, more (decode_root_fields fuel c cx) (decode_root_fields fuel' c cx).
Proof.
  induction fuel as [|fuel IH]; intros fuel' L c; [now left|].
  destruct fuel' as [|fuel']; [lia|]. assert (L' : fuel <= fuel') by lia. specialize (IH fuel' L').
  destruct (fuel_more cx fuel fuel' L') as (Ikv & _). cbn [decode_root_fields]. repeat step.
Qed.

(** [decode_lines] with another amount of fuel. *)
Definition decode_lines_with (fuel : nat) (lines : list parsed_line) (cx : dctx) : result (list event * cursor) :=
  match lines with
  | [] => Ok ([EvStartObject; EvEndObject], Cursor [] None)
  | first :: rest =>
      let c := Cursor rest (Some first) in
      let? h := (if is_array_header_content (pl_content first)
                 then parse_array_header_line (pl_content first) DEFAULT_DELIMITER
                 else Ok None) in
      match h with
      | Some (h, iv) => decode_array_from_header fuel h iv c 0 cx
      | None =>
          if at_end c && negb (is_key_value_line (pl_content first)) then
            let? p := parse_primitive_token (trim (pl_content first)) in
            Ok ([EvPrim p], c)
          else
            let? (e1, c1) := decode_key_value fuel (pl_content first) c 0 cx in
            let? (e2, c2) := decode_root_fields fuel c1 cx in
            Ok (EvStartObject :: e1 ++ e2 ++ [EvEndObject], c2)
      end
  end.
Lemma lines_more ls cx fuel : 5 * length ls + 8 <= fuel -> more (decode_lines ls cx) (decode_lines_with fuel ls cx).
Proof.
  intros L. destruct ls as [|l r]; [apply more_refl|]. unfold decode_lines, decode_lines_with. cbv zeta.
  destruct (fuel_more cx (dec_fuel (l :: r)) fuel L) as (Ikv & _ & Iar & _).
  pose proof (root_more cx (dec_fuel (l :: r)) fuel L) as Iro. repeat step.
Qed.
