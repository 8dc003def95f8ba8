(** JSON text as RFC 8259 defines it: a reader.  Numbers stay as they are written; names may repeat.
    Definitions only. *)
From Verif Require Import Chars Floats Json.

Inductive jtree :=
| TNull
| TBool (b : bool)
| TNum (literal : str)
| TStr (s : str)
| TArr (items : list jtree)
| TObj (members : list (str * jtree)).

(** Insignificant white space. *)
Definition json_ws (c : char) : bool := (c =? cSPACE) || (c =? cTAB) || (c =? cLF) || (c =? cCR).
Fixpoint skip_ws (s : str) : str :=
  match s with c :: r => if json_ws c then skip_ws r else s | [] => [] end.

(** Strings, after the opening quotation mark. *)
Definition hex_val (c : char) : option N :=
  if is_digit c then Some (c - 48)
  else if (97 <=? c) && (c <=? 102) then Some (c - 87)
  else if (65 <=? c) && (c <=? 70) then Some (c - 55)
  else None.
Definition hex_val4 (a b c d : char) : option N :=
  match hex_val a, hex_val b, hex_val c, hex_val d with
  | Some a, Some b, Some c, Some d => Some (((a * 16 + b) * 16 + c) * 16 + d)
  | _, _, _, _ => None
  end.
Definition high_surrogate (u : N) : bool := (55296 <=? u) && (u <=? 56319).
Definition low_surrogate (u : N) : bool := (56320 <=? u) && (u <=? 57343).
Definition simple_escape (c : char) : option char :=
  if (c =? cDQ) || (c =? cBSLASH) || (c =? 47) then Some c
  else if c =? 98 then Some 8
  else if c =? 102 then Some 12
  else if c =? cLN then Some cLF
  else if c =? cLR then Some cCR
  else if c =? cLT then Some cTAB
  else None.
Definition put (c : char) (r : option (str * str)) : option (str * str) :=
  option_map (fun p => (c :: fst p, snd p)) r.
Fixpoint read_string (s : str) : option (str * str) :=
  match s with
  | [] => None
  | c :: r =>
      if c =? cDQ then Some ([], r)
      else if c =? cBSLASH then
        match r with
        | [] => None
        | e :: r =>
            match simple_escape e with
            | Some x => put x (read_string r)
            | None =>
                if e =? 117 then
                  match r with
                  | h1 :: h2 :: h3 :: h4 :: r =>
                      match hex_val4 h1 h2 h3 h4 with
                      | None => None
                      | Some u =>
                          if low_surrogate u then None
                          else if high_surrogate u then
                            match r with
                            | b :: e :: h1 :: h2 :: h3 :: h4 :: r =>
                                if (b =? cBSLASH) && (e =? 117) then
                                  match hex_val4 h1 h2 h3 h4 with
                                  | Some l => if low_surrogate l
                                              then put (65536 + (u - 55296) * 1024 + (l - 56320)) (read_string r)
                                              else None
                                  | None => None
                                  end
                                else None
                            | _ => None
                            end
                          else put u (read_string r)
                      end
                  | _ => None
                  end
                else None
            end
        end
      else if c <? 32 then None
      else put c (read_string r)
  end.

(** Numbers: -? int frac? exp? *)
Definition number_char (c : char) : bool :=
  is_digit c || (c =? cMINUS) || (c =? cPLUS) || (c =? cDOT) || (c =? cLE) || (c =? cUE).
Fixpoint span_number (s : str) : str * str :=
  match s with
  | [] => ([], [])
  | c :: r => if number_char c then let (a, b) := span_number r in (c :: a, b) else ([], s)
  end.
Definition int_part (ds : str) : bool :=
  match ds with
  | [] => false
  | c :: r => negb (c =? cZERO) || is_empty r
  end.
Definition exp_part (s : str) : bool :=
  match s with
  | [] => true
  | c :: r =>
      ((c =? cLE) || (c =? cUE)) &&
      let r := match r with x :: r' => if (x =? cPLUS) || (x =? cMINUS) then r' else r | [] => [] end in
      negb (is_empty r) && forallb is_digit r
  end.
Definition json_numeral (s : str) : bool :=
  let s := match s with c :: r => if c =? cMINUS then r else s | [] => [] end in
  let (ip, r) := span_digits s in
  int_part ip &&
  match r with
  | c :: r' => if c =? cDOT then let (fp, r'') := span_digits r' in negb (is_empty fp) && exp_part r''
               else exp_part r
  | [] => true
  end.

(** Values.  The fuel bounds the recursion. *)
Fixpoint read_value (fuel : nat) (s : str) : option (jtree * str) :=
  match fuel with
  | O => None
  | S fuel =>
      match skip_ws s with
      | [] => None
      | c :: r =>
          if c =? cDQ then option_map (fun p => (TStr (fst p), snd p)) (read_string r)
          else if c =? cLBRACE then
            match skip_ws r with
            | x :: r' => if x =? cRBRACE then Some (TObj [], r')
                         else option_map (fun p => (TObj (fst p), snd p)) (read_members fuel r)
            | [] => None
            end
          else if c =? cLBRACK then
            match skip_ws r with
            | x :: r' => if x =? cRBRACK then Some (TArr [], r')
                         else option_map (fun p => (TArr (fst p), snd p)) (read_items fuel r)
            | [] => None
            end
          else if starts_with_str (lit "null") (c :: r) then Some (TNull, skipn 4 (c :: r))
          else if starts_with_str (lit "true") (c :: r) then Some (TBool true, skipn 4 (c :: r))
          else if starts_with_str (lit "false") (c :: r) then Some (TBool false, skipn 5 (c :: r))
          else let (n, r') := span_number (c :: r) in
               if json_numeral n then Some (TNum n, r') else None
      end
  end
with read_items (fuel : nat) (s : str) : option (list jtree * str) :=
  match fuel with
  | O => None
  | S fuel =>
      match read_value fuel s with
      | None => None
      | Some (v, r) =>
          match skip_ws r with
          | c :: r' => if c =? cRBRACK then Some ([v], r')
                       else if c =? cCOMMA then option_map (fun p => (v :: fst p, snd p)) (read_items fuel r')
                       else None
          | [] => None
          end
      end
  end
with read_members (fuel : nat) (s : str) : option (list (str * jtree) * str) :=
  match fuel with
  | O => None
  | S fuel =>
      match skip_ws s with
      | q :: r =>
          if q =? cDQ then
            match read_string r with
            | None => None
            | Some (k, r) =>
                match skip_ws r with
                | c :: r =>
                    if c =? cCOLON then
                      match read_value fuel r with
                      | None => None
                      | Some (v, r) =>
                          match skip_ws r with
                          | c :: r' => if c =? cRBRACE then Some ([(k, v)], r')
                                       else if c =? cCOMMA
                                       then option_map (fun p => ((k, v) :: fst p, snd p)) (read_members fuel r')
                                       else None
                          | [] => None
                          end
                      end
                    else None
                | [] => None
                end
            end
          else None
      | [] => None
      end
  end.

(** A JSON text: one value, white space around it, nothing else. *)
Definition read_json (s : str) : option jtree :=
  match read_value (2 * length s + 2) s with
  | Some (t, r) => if is_empty (skip_ws r) then Some t else None
  | None => None
  end.

(** The value a text stands for, with numbers rounded to binary64. *)
Definition map_option {A B} (f : A -> option B) : list A -> option (list B) :=
  fix go (l : list A) : option (list B) :=
    match l with
    | [] => Some []
    | x :: r => match f x, go r with Some y, Some ys => Some (y :: ys) | _, _ => None end
    end.
Fixpoint tree_value (t : jtree) : option json :=
  match t with
  | TNull => Some (JPrim PNull)
  | TBool b => Some (JPrim (PBool b))
  | TNum n => option_map (fun x => JPrim (PNum x)) (parse_f64 n)
  | TStr s => Some (JPrim (PStr s))
  | TArr l => option_map JArr (map_option tree_value l)
  | TObj l => option_map JObj (map_option (fun kv => option_map (pair (fst kv)) (tree_value (snd kv))) l)
  end.
Definition json_value (s : str) : option json :=
  match read_json s with Some t => tree_value t | None => None end.

(** Values JSON can express: finite numbers; the others become null. *)
Definition finite_prim (p : prim) : prim :=
  match p with PNum x => if f64_is_finite x then p else PNull | _ => p end.
Fixpoint finite_json (v : json) : json :=
  match v with
  | JPrim p => JPrim (finite_prim p)
  | JArr l => JArr (map finite_json l)
  | JObj l => JObj (map (fun kv => (fst kv, finite_json (snd kv))) l)
  end.
