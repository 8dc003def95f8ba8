(** src/decode/event_builder.rs.  Definitions only. *)
From Verif Require Import Chars Floats Json Folding.

(** src/decode/event_builder.rs:6-17.  The hash set of quoted keys is a list used through
    membership. *)
Inductive node :=
| NPrim (p : prim)
| NArr (items : list node)
| NObj (entries : list (str * node)) (quoted : list str).

(** src/decode/event_builder.rs:19-29 *)
Inductive build_ctx :=
| BObj (entries : list (str * node)) (current_key : option str) (quoted : list str)
| BArr (items : list node).

(** src/decode/event_builder.rs:31-35 *)
Record build_state := BState { bs_stack : list build_ctx; bs_root : option node }.

(** What a finished value comes from. *)
Definition finished_by (n : node) : occasion :=
  match n with NPrim _ => OPrim | NArr _ => OEndArray | NObj _ _ => OEndObject end.
(** Attaching a finished value: src/decode/event_builder.rs:97-117, 130-150 and 170-192. *)
Definition attach (st : list build_ctx) (root : option node) (n : node) : result build_state :=
  match st with
  | [] => Ok (BState [] (Some n))
  | BObj entries current_key quoted :: r =>
      match current_key with
      | None => Err (ENoKey (finished_by n))
      | Some key => Ok (BState (BObj (entries ++ [(key, n)]) None quoted :: r) root)
      end
  | BArr items :: r => Ok (BState (BArr (items ++ [n]) :: r) root)
  end.

(** src/decode/event_builder.rs:72-197 *)
Definition apply_event (s : build_state) (e : event) : result build_state :=
  match e with
  | EvStartObject => Ok (BState (BObj [] None [] :: bs_stack s) (bs_root s))
  | EvEndObject =>
      match bs_stack s with
      | [] => Err (EUnexpectedEvent OEndObject)
      | BObj entries _ quoted :: r => attach r (bs_root s) (NObj entries quoted)
      | BArr _ :: _ => Err (EMismatchedEnd OEndObject)
      end
  | EvStartArray _ => Ok (BState (BArr [] :: bs_stack s) (bs_root s))
  | EvEndArray =>
      match bs_stack s with
      | [] => Err (EUnexpectedEvent OEndArray)
      | BArr items :: r => attach r (bs_root s) (NArr items)
      | BObj _ _ _ :: _ => Err (EMismatchedEnd OEndArray)
      end
  | EvKey key was_quoted =>
      match bs_stack s with
      | BObj entries _ quoted :: r =>
          Ok (BState (BObj entries (Some key) (if was_quoted then key :: quoted else quoted) :: r)
                     (bs_root s))
      | _ => Err (EUnexpectedEvent OKey)
      end
  | EvPrim p => attach (bs_stack s) (bs_root s) (NPrim p)
  end.

Fixpoint apply_events (s : build_state) (evs : list event) : result build_state :=
  match evs with
  | [] => Ok s
  | e :: r => let? s' := apply_event s e in apply_events s' r
  end.

(** src/decode/event_builder.rs:43-56 and 199-209 *)
Definition build_node_from_events (evs : list event) : result node :=
  let? s := apply_events (BState [] None) evs in
  match bs_stack s with
  | [] => match bs_root s with Some n => Ok n | None => Err ENoRoot end
  | _ => Err EIncomplete
  end.

(** src/decode/event_builder.rs:58-69 *)
Fixpoint node_to_json (n : node) : json :=
  match n with
  | NPrim p => JPrim p
  | NArr l => JArr (map node_to_json l)
  | NObj l _ => JObj (map (fun kv => (fst kv, node_to_json (snd kv))) l)
  end.
