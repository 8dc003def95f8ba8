(** src/decode/expand.rs.  Definitions only.

    Every Rust function here starts with "if depth >= MAX_EXPAND_DEPTH then error" and passes
    [depth + 1] on; the model passes the number of levels left, [MAX_EXPAND_DEPTH - depth]. *)
From Verif Require Import Chars Floats Json Shared Folding EventBuilder.

(** src/decode/expand.rs:11 *)
Definition MAX_EXPAND_DEPTH : nat := 256.

(** src/decode/expand.rs:197-199, with replacement in place. *)
Fixpoint entry_get (entries : list (str * node)) (key : str) : option node :=
  match entries with
  | [] => None
  | (k, v) :: r => if str_eqb k key then Some v else entry_get r key
  end.
Fixpoint entry_set (entries : list (str * node)) (key : str) (v : node) : list (str * node) :=
  match entries with
  | [] => []
  | (k, w) :: r => if str_eqb k key then (k, v) :: r else (k, w) :: entry_set r key v
  end.

(** src/decode/expand.rs:215-221 *)
Definition node_kind (n : node) : nkind :=
  match n with NPrim _ => KPrim | NArr _ => KArr | NObj _ _ => KObj end.

(** src/decode/expand.rs:164-195 *)
Fixpoint merge_objects (left_ : nat) (strict : bool) (target source : list (str * node))
         {struct left_} : result (list (str * node)) :=
  match left_ with
  | O => Err EExpandDepth
  | S l =>
      (fix go (target source : list (str * node)) {struct source} : result (list (str * node)) :=
         match source with
         | [] => Ok target
         | (key, value) :: r =>
             match entry_get target key with
             | None => go (target ++ [(key, value)]) r
             | Some existing =>
                 match existing, value with
                 | NObj eo eq, NObj so _ =>
                     let? m := merge_objects l strict eo so in
                     go (entry_set target key (NObj m eq)) r
                 | _, _ => if strict then Err (EExpandConflict (CKey key (node_kind existing) (node_kind value)))
                           else go (entry_set target key value) r
                 end
             end
         end) target source
  end.

(** src/decode/expand.rs:131-162 *)
Definition insert_literal_entry (left_ : nat) (strict : bool) (entries : list (str * node))
           (key : str) (value : node) : result (list (str * node)) :=
  match left_ with
  | O => Err EExpandDepth
  | S l =>
      match entry_get entries key with
      | None => Ok (entries ++ [(key, value)])
      | Some existing =>
          match existing, value with
          | NObj eo eq, NObj so _ =>
              let? m := merge_objects l strict eo so in
              Ok (entry_set entries key (NObj m eq))
          | _, _ =>
              if strict then Err (EExpandConflict (CKey key (node_kind existing) (node_kind value)))
              else Ok (entry_set entries key value)
          end
      end
  end.

(** src/decode/expand.rs:77-129 *)
Fixpoint insert_path_entries (left_ : nat) (strict : bool) (entries : list (str * node))
         (segments : list str) (value : node) {struct left_} : result (list (str * node)) :=
  match left_ with
  | O => Err EExpandDepth
  | S l =>
      match segments with
      | [] => Ok entries
      | [key] => insert_literal_entry l strict entries key value
      | key :: rest =>
          match entry_get entries key with
          | Some (NObj eo eq) =>
              let? m := insert_path_entries l strict eo rest value in
              Ok (entry_set entries key (NObj m eq))
          | Some existing =>
              if strict then Err (EExpandConflict (CSegment key (node_kind existing)))
              else
                let? m := insert_path_entries l strict [] rest value in
                Ok (entry_set entries key (NObj m []))
          | None =>
              let? m := insert_path_entries l strict [] rest value in
              Ok (entries ++ [(key, NObj m [])])
          end
      end
  end.

(** src/decode/expand.rs:60-69: which keys are expanded, and into what. *)
Definition expandable (key : str) (quoted : list str) : bool :=
  contains cDOT key && negb (str_mem key quoted) &&
  forallb is_identifier_segment (split_on cDOT key).

(** src/decode/expand.rs:29-44 and 46-75 *)
Fixpoint expand_inner (left_ : nat) (strict : bool) (value : node) {struct left_} : result node :=
  match left_ with
  | O => Err EExpandDepth
  | S l =>
      match value with
      | NArr items => let? xs := map_result (expand_inner l strict) items in Ok (NArr xs)
      | NObj entries quoted =>
          match l with
          | O => Err EExpandDepth
          | S l' =>
              let? es :=
                (fix go (acc entries : list (str * node)) : result (list (str * node)) :=
                   match entries with
                   | [] => Ok acc
                   | (key, value) :: r =>
                       let? v := expand_inner l' strict value in
                       let? acc' :=
                         (if expandable key quoted
                          then insert_path_entries l' strict acc (split_on cDOT key) v
                          else insert_literal_entry l' strict acc key v) in
                       go acc' r
                   end) [] entries in
              Ok (NObj es [])
          end
      | NPrim p => Ok (NPrim p)
      end
  end.

(** src/decode/expand.rs:25-27 *)
Definition expand_paths_safe (value : node) (strict : bool) : result node :=
  expand_inner MAX_EXPAND_DEPTH strict value.
