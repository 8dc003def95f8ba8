(** How deeply the calls of src/decode/expand.rs nest.  Definitions only.

    The functions of Expand.v once more, each result with the greatest number of calls that were
    open at one time below the function, in the way of DecFrames.v.  Counted are
    [expand_paths_safe], [expand_paths_safe_inner], [expand_object], [insert_path_entries],
    [insert_literal_entry] and [merge_objects], the call that only refuses included.  The other
    functions of the file are not recursive and do not call back; the derived [clone] of a node
    (src/decode/expand.rs:142, 175) is recursive and is not counted. *)
From Verif Require Import Chars Floats Json Shared Folding EventBuilder Expand DecFrames.

(** src/decode/expand.rs:164-195 *)
Fixpoint merge_frames (left_ : nat) (strict : bool) (target source : list (str * node))
         {struct left_} : counted (list (str * node)) :=
  match left_ with
  | O => here (Err EExpandDepth)
  | S l =>
      (fix go (target source : list (str * node)) {struct source} : counted (list (str * node)) :=
         match source with
         | [] => here (Ok target)
         | (key, value) :: r =>
             match entry_get target key with
             | None => go (target ++ [(key, value)]) r
             | Some existing =>
                 match existing, value with
                 | NObj eo eq, NObj so _ =>
                     let! m := call (merge_frames l strict eo so) in
                     go (entry_set target key (NObj m eq)) r
                 | _, _ => if strict then here (Err (EExpandConflict (CKey key (node_kind existing) (node_kind value))))
                           else go (entry_set target key value) r
                 end
             end
         end) target source
  end.

(** src/decode/expand.rs:131-162 *)
Definition literal_frames (left_ : nat) (strict : bool) (entries : list (str * node))
           (key : str) (value : node) : counted (list (str * node)) :=
  match left_ with
  | O => here (Err EExpandDepth)
  | S l =>
      match entry_get entries key with
      | None => here (Ok (entries ++ [(key, value)]))
      | Some existing =>
          match existing, value with
          | NObj eo eq, NObj so _ =>
              let! m := call (merge_frames l strict eo so) in
              here (Ok (entry_set entries key (NObj m eq)))
          | _, _ =>
              here (if strict then Err (EExpandConflict (CKey key (node_kind existing) (node_kind value)))
                    else Ok (entry_set entries key value))
          end
      end
  end.

(** src/decode/expand.rs:77-129 *)
Fixpoint path_frames (left_ : nat) (strict : bool) (entries : list (str * node))
         (segments : list str) (value : node) {struct left_} : counted (list (str * node)) :=
  match left_ with
  | O => here (Err EExpandDepth)
  | S l =>
      match segments with
      | [] => here (Ok entries)
      | [key] => call (literal_frames l strict entries key value)
      | key :: rest =>
          match entry_get entries key with
          | Some (NObj eo eq) =>
              let! m := call (path_frames l strict eo rest value) in
              here (Ok (entry_set entries key (NObj m eq)))
          | Some existing =>
              if strict then here (Err (EExpandConflict (CSegment key (node_kind existing))))
              else
                let! m := call (path_frames l strict [] rest value) in
                here (Ok (entry_set entries key (NObj m [])))
          | None =>
              let! m := call (path_frames l strict [] rest value) in
              here (Ok (entries ++ [(key, NObj m [])]))
          end
      end
  end.

(** src/decode/expand.rs:34-40: the loop over the items of an array. *)
Fixpoint map_counted {A B} (f : A -> counted B) (l : list A) : counted (list B) :=
  match l with
  | [] => here (Ok [])
  | x :: r =>
      let! y := call (f x) in
      let! ys := map_counted f r in
      here (Ok (y :: ys))
  end.

(** src/decode/expand.rs:29-44 and 46-75; [expand_object] is the second branch. *)
Fixpoint inner_frames (left_ : nat) (strict : bool) (value : node) {struct left_} : counted node :=
  match left_ with
  | O => here (Err EExpandDepth)
  | S l =>
      match value with
      | NArr items => let! xs := map_counted (inner_frames l strict) items in here (Ok (NArr xs))
      | NObj entries quoted =>
          let! es := call
            match l with
            | O => here (Err EExpandDepth)
            | S l' =>
                (fix go (acc entries : list (str * node)) : counted (list (str * node)) :=
                   match entries with
                   | [] => here (Ok acc)
                   | (key, value) :: r =>
                       let! v := call (inner_frames l' strict value) in
                       let! acc' :=
                         (if expandable key quoted
                          then call (path_frames l' strict acc (split_on cDOT key) v)
                          else call (literal_frames l' strict acc key v)) in
                       go acc' r
                   end) [] entries
            end in
          here (Ok (NObj es []))
      | NPrim p => here (Ok (NPrim p))
      end
  end.

(** src/decode/expand.rs:25-27, its own frame included. *)
Definition expand_frames (value : node) (strict : bool) : counted node :=
  call (call (inner_frames MAX_EXPAND_DEPTH strict value)).
