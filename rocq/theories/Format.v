(** * Format: model of /repo/src/parse/format.rs.

    [format] returns [option str]: [None] is the panic of the [usize] subtraction
    [indent_amt - INDENT_STEP] (lines 123, 167, 208) on underflow. *)
From Verif Require Export Values.
From Coq Require Import String.
Open Scope N_scope.

(** src/lib.rs:57 [INDENT_STEP] *)
Definition INDENT_STEP : N := 4.

(** src/parse/format.rs:9-11 [indent] *)
Definition indent (n : N) : str := repeat 32 (N.to_nat n).

(** src/parse/format.rs:13-24 [get_char_map] *)
Definition get_char_map (c : char) : option str :=
  if c =? c_bslash then Some [c_bslash; c_bslash]
  else if c =? c_quote then Some [c_bslash; c_quote]
  else if c =? c_apos then Some [c_bslash; c_apos]
  else if c =? c_dollar then Some [c_bslash; c_dollar]
  else if c =? c_nl then Some [c_bslash; c_n]
  else if c =? c_cr then Some [c_bslash; c_r]
  else if c =? c_tab then Some [c_bslash; c_t]
  else None.

(** src/parse/format.rs:26-37 [replace_all] *)
Fixpoint replace_all (s : str) : str :=
  match s with
  | [] => []
  | c :: s' => match get_char_map c with Some e => e | None => [c] end ++ replace_all s'
  end.

(** num-rational 0.2 Display for Ratio: the numerator alone when the denominator is one,
    "n/d" otherwise. *)
Definition ratio_show (q : Q) : str :=
  if Pos.eqb (Qden q) 1 then Z_to_dec (Qnum q)
  else Z_to_dec (Qnum q) ++ [c_slash] ++ N_to_dec (Npos (Qden q)).

(** src/parse/format.rs:44-54 [impl Format for BigRational] *)
Definition format_frac (q : Q) : str :=
  if Pos.eqb (Qden q) 1 then ratio_show q ++ lit ".0" else ratio_show q.

(** src/parse/format.rs:56-60 [impl Format for String] *)
Definition format_str (s : str) : str := [c_quote] ++ replace_all s ++ [c_quote].

(** [usize] subtraction; [None] = overflow panic. *)
Definition usub (a b : N) : option N := if b <=? a then Some (a - b) else None.

(** [with_each(|x| s.push_str(&f(x)))]: the texts of all elements, one after the other. *)
Definition concat_opt {A : Type} (f : A -> option str) : list A -> option str :=
  fix go (l : list A) : option str :=
    match l with
    | [] => Some []
    | x :: l' =>
        match f x, go l' with
        | Some a, Some b => Some (a ++ b)
        | _, _ => None
        end
    end.

Definition opt_bind {A B : Type} (o : option A) (f : A -> option B) : option B :=
  match o with Some a => f a | None => None end.

(** src/parse/format.rs:62-84 Value, 86-131 Arr, 133-173 Tup, 175-213 Obj *)
Fixpoint format_value (full : bool) (ind : N) (v : value) {struct v} : option str :=
  match v with
  | VNull => Some (lit "null")
  | VBool true => Some (lit "true")
  | VBool false => Some (lit "false")
  | VInt z => Some (Z_to_dec z)
  | VFrac q => Some (format_frac q)
  | VStr s => Some (format_str s)
  | VArr a => format_arr true ind a
  | VTup t => format_tup true ind t
  | VObj o => format_obj true ind o
  end
with format_arr (full : bool) (ind : N) (a : arr) {struct a} : option str :=
  match a with
  | MkArr _ _ vs =>
      match vs with
      | [] => Some (if full then lit "[]" else [])
      | [v] =>
          opt_bind (format_value true ind v) (fun f =>
          Some (if full then lit "[" ++ f ++ lit "]" else f))
      | _ =>
          opt_bind (concat_opt (fun v =>
            opt_bind (format_value true (ind + INDENT_STEP) v) (fun f =>
            Some (indent ind ++ f ++ [c_nl]))) vs) (fun body =>
          let s := (if full then lit "[" ++ [c_nl] else []) ++ body in
          if full then
            opt_bind (if ind =? 0 then Some 0 else usub ind INDENT_STEP) (fun actual =>
            Some (s ++ indent actual ++ lit "]"))
          else Some s)
      end
  end
with format_tup (full : bool) (ind : N) (t : tup) {struct t} : option str :=
  match t with
  | MkTup _ _ vs =>
      match vs with
      | [] => Some (if full then lit "()" else [])
      | [v] =>
          opt_bind (format_value true ind v) (fun f =>
          Some (if full then lit "(" ++ f ++ lit ")" else f))
      | _ =>
          opt_bind (concat_opt (fun v =>
            opt_bind (format_value true (ind + INDENT_STEP) v) (fun f =>
            Some (indent ind ++ f ++ [c_nl]))) vs) (fun body =>
          let s := (if full then lit "(" ++ [c_nl] else []) ++ body in
          if full then
            opt_bind (usub ind INDENT_STEP) (fun actual => Some (s ++ indent actual ++ lit ")"))
          else Some s)
      end
  end
with format_obj (full : bool) (ind : N) (o : obj) {struct o} : option str :=
  match o with
  | MkObj _ ps par =>
      match ps, par with
      | [], None => Some (if full then lit "{}" else [])
      | _, _ =>
          opt_bind (match par with
                    | Some p =>
                        opt_bind (format_obj true (ind + INDENT_STEP) p) (fun f =>
                        Some (indent ind ++ lit "^: " ++ f ++ [c_nl]))
                    | None => Some []
                    end) (fun parent_text =>
          opt_bind (concat_opt (fun p =>
            match p with
            | (field, v) =>
                opt_bind (format_value true (ind + INDENT_STEP) v) (fun f =>
                Some (indent ind ++ field ++ lit ": " ++ f ++ [c_nl]))
            end) ps) (fun body =>
          let s := (if full then lit "{" ++ [c_nl] else []) ++ parent_text ++ body in
          if full then
            opt_bind (usub ind INDENT_STEP) (fun actual => Some (s ++ indent actual ++ lit "}"))
          else Some s))
      end
  end.

(** src/obj.rs:169-171 [Obj::write_to_string] *)
Definition write_to_string (o : obj) : option str := format_obj false 0 o.

(** Display: src/value.rs:141-145, arr.rs:141-145, tup.rs:110-114, obj.rs:316-320 *)
Definition value_display (v : value) : option str := format_value true INDENT_STEP v.
Definition obj_display (o : obj) : option str := format_obj true INDENT_STEP o.
Definition arr_display (a : arr) : option str := format_arr true INDENT_STEP a.
Definition tup_display (t : tup) : option str := format_tup true INDENT_STEP t.
