(** * Base: characters, strings, decimal text, character classes.

    Models /repo/src/parse/util.rs and the pieces of the Rust standard library it uses.
    A Rust [char] is modelled by its code point (an [N]); a Rust [String]/[&str] by the list of
    its chars.  (Simplification: [N] also contains non-scalar values; every theorem holds for the
    larger domain.) *)
From Coq Require Export List NArith ZArith Bool Lia.
From Coq Require Export QArith_base Qreduction.
From Coq Require Import Ascii String Decimal DecimalN.
Export ListNotations.
Open Scope N_scope.

Notation char := N (only parsing).
Definition str := list N.

(** String literals: [lit "abc"] is the list of code points of an ASCII literal. *)
Definition lit (s : string) : str := map N_of_ascii (list_ascii_of_string s).
Arguments lit s%string_scope.

(** Code points used by the grammar (notations, so that [lia] sees numerals). *)
Notation c_tab := 9 (only parsing).
Notation c_nl := 10 (only parsing).
Notation c_cr := 13 (only parsing).
Notation c_space := 32 (only parsing).
Notation c_quote := 34 (only parsing).     (* double quote *)
Notation c_hash := 35 (only parsing).      (* # *)
Notation c_dollar := 36 (only parsing).    (* $ *)
Notation c_percent := 37 (only parsing).   (* % *)
Notation c_apos := 39 (only parsing).      (* apostrophe *)
Notation c_lparen := 40 (only parsing).
Notation c_rparen := 41 (only parsing).
Notation c_star := 42 (only parsing).
Notation c_plus := 43 (only parsing).
Notation c_comma := 44 (only parsing).
Notation c_minus := 45 (only parsing).
Notation c_dot := 46 (only parsing).
Notation c_slash := 47 (only parsing).
Notation c_0 := 48 (only parsing).
Notation c_9 := 57 (only parsing).
Notation c_colon := 58 (only parsing).
Notation c_lt := 60 (only parsing).
Notation c_gt := 62 (only parsing).
Notation c_at := 64 (only parsing).        (* @ *)
Notation c_lbrack := 91 (only parsing).
Notation c_bslash := 92 (only parsing).
Notation c_rbrack := 93 (only parsing).
Notation c_caret := 94 (only parsing).     (* ^ *)
Notation c_under := 95 (only parsing).     (* _ *)
Notation c_n := 110 (only parsing).
Notation c_r := 114 (only parsing).
Notation c_t := 116 (only parsing).
Notation c_lbrace := 123 (only parsing).
Notation c_rbrace := 125 (only parsing).

(** Generic boolean equality of lists (Rust's [Vec<T> == Vec<T>], and [str == str]):
    same length and pointwise equal. *)
Definition list_eqb {A B : Type} (eqb : A -> B -> bool) : list A -> list B -> bool :=
  fix go (l1 : list A) (l2 : list B) {struct l1} : bool :=
    match l1, l2 with
    | [], [] => true
    | x :: l1', y :: l2' => eqb x y && go l1' l2'
    | _, _ => false
    end.

Definition str_eqb (a b : str) : bool := list_eqb N.eqb a b.

(** First pair with key [k] ([iter().find(..)] over [Vec<Pair>], and [HashMap::get] on an
    association list whose newest binding is first). *)
Fixpoint assoc {V : Type} (k : str) (l : list (str * V)) : option V :=
  match l with
  | [] => None
  | (k', v) :: l' => if str_eqb k' k then Some v else assoc k l'
  end.

(** Membership in a [HashSet<String>] represented by a list. *)
Definition mem_str (k : str) (l : list str) : bool := existsb (fun x => str_eqb x k) l.

(** ** Unicode oracle.

    [char::is_alphabetic] (Rust core) is ['a'..='z' | 'A'..='Z' => true] and otherwise, for
    non-ASCII code points, a lookup in Unicode's Alphabetic table.  The table is an oracle:
    every theorem holds for every [u_alpha].  [u_debug c] is the text [format!("{:?}", c)] of a
    char, used only inside error messages. *)
Class Unicode := {
  u_alpha : N -> bool;
  u_debug : N -> str
}.

(** [char::is_whitespace] (Rust core): [' ' | '\x09'..='\x0d' => true], otherwise Unicode
    White_Space for code points above 0x7f (the complete table). *)
Definition ch_is_whitespace (c : char) : bool :=
  (c =? 32) || ((9 <=? c) && (c <=? 13)) ||
  (c =? 133) || (c =? 160) || (c =? 5760) || ((8192 <=? c) && (c <=? 8202)) ||
  (c =? 8232) || (c =? 8233) || (c =? 8239) || (c =? 8287) || (c =? 12288).

(** [char::is_alphabetic] (Rust core).  The conjunct [negb (ch_is_whitespace c)] records that no
    White_Space character is Alphabetic in Unicode. *)
Definition ch_is_alphabetic `{Unicode} (c : char) : bool :=
  ((97 <=? c) && (c <=? 122)) || ((65 <=? c) && (c <=? 90)) ||
  ((127 <? c) && u_alpha c && negb (ch_is_whitespace c)).

(** src/parse/util.rs:14-25 [get_escape_char] *)
Definition get_escape_char (c : char) : option char :=
  if c =? c_bslash then Some c_bslash
  else if c =? c_quote then Some c_quote
  else if c =? c_apos then Some c_apos
  else if c =? c_dollar then Some c_dollar
  else if c =? c_n then Some c_nl
  else if c =? c_r then Some c_cr
  else if c =? c_t then Some c_tab
  else None.

(** src/parse/mod.rs:65-70 [BinaryOp::is_op] *)
Definition is_op (c : char) : bool :=
  (c =? c_plus) || (c =? c_minus) || (c =? c_star) || (c =? c_slash) || (c =? c_percent).

(** src/parse/util.rs:33-35 [is_whitespace] (whitespace or start of a comment) *)
Definition is_whitespace (c : char) : bool := ch_is_whitespace c || (c =? c_hash).

(** src/parse/util.rs:37-42 [is_end_delimiter] *)
Definition is_end_delimiter (c : char) : bool :=
  (c =? c_rparen) || (c =? c_rbrack) || (c =? c_rbrace) || (c =? c_gt).

(** src/parse/util.rs:28-30 [is_value_end_char] *)
Definition is_value_end_char (c : char) : bool :=
  is_whitespace c || is_end_delimiter c || is_op c.

(** src/parse/util.rs:53-58 [is_digit] *)
Definition is_digit (c : char) : bool := (48 <=? c) && (c <=? 57).

(** src/parse/util.rs:44-50 [is_numeric_char] *)
Definition is_numeric_char (c : char) : bool :=
  is_digit c || (c =? c_dot) || (c =? c_comma).

(** src/parse/util.rs:60-65 [is_reserved] *)
Definition is_reserved (f : str) : bool :=
  str_eqb f (lit "@") || str_eqb f (lit "null") || str_eqb f (lit "true") ||
  str_eqb f (lit "false") || str_eqb f (lit "Obj") || str_eqb f (lit "Str") ||
  str_eqb f (lit "Arr") || str_eqb f (lit "Tup").

(** src/obj.rs:285-293 [Obj::is_valid_field_char] *)
Definition is_valid_field_char `{Unicode} (c : char) (first : bool) : bool :=
  if ch_is_alphabetic c then true
  else if is_digit c then negb first
  else if c =? c_under then true
  else if c =? c_caret then first
  else false.

(** src/obj.rs:264-279 [Obj::is_valid_field]: the loop over the chars with the [first] flag. *)
Fixpoint is_valid_field_from `{Unicode} (first : bool) (f : str) : bool :=
  match f with
  | [] => true
  | c :: f' => if is_valid_field_char c first then is_valid_field_from false f' else false
  end.
Definition is_valid_field `{Unicode} (f : str) : bool := is_valid_field_from true f.

(** ** Decimal text.

    [format!("{}", n)] for unsigned integers and [BigInt] (num-bigint Display): decimal digits
    without leading zeros, with a leading '-' for negative numbers.  Uses the standard library's
    [N.to_uint]. *)
Fixpoint uint_chars (u : Decimal.uint) : str :=
  match u with
  | Decimal.Nil => []
  | Decimal.D0 u => 48 :: uint_chars u
  | Decimal.D1 u => 49 :: uint_chars u
  | Decimal.D2 u => 50 :: uint_chars u
  | Decimal.D3 u => 51 :: uint_chars u
  | Decimal.D4 u => 52 :: uint_chars u
  | Decimal.D5 u => 53 :: uint_chars u
  | Decimal.D6 u => 54 :: uint_chars u
  | Decimal.D7 u => 55 :: uint_chars u
  | Decimal.D8 u => 56 :: uint_chars u
  | Decimal.D9 u => 57 :: uint_chars u
  end.
Definition N_to_dec (n : N) : str := uint_chars (N.to_uint n).
Definition Z_to_dec (z : Z) : str :=
  match z with
  | Z0 => N_to_dec 0
  | Zpos p => N_to_dec (Npos p)
  | Zneg p => c_minus :: N_to_dec (Npos p)
  end.

(** [str::parse::<BigInt>] on a non-empty string of ASCII digits (parser.rs:745,754,765). *)
Definition dec_val (s : str) : N := fold_left (fun a c => a * 10 + (c - 48)) s 0.

(** ** Rationals.  [BigRational] is modelled by a [Q]; the crate num-rational keeps it in lowest
    terms with a positive denominator, [Qred].  [ratio_new n d] is [BigRational::new(n, d)],
    [None] being its panic on a zero denominator. *)
Definition ratio_new (n d : Z) : option Q :=
  match d with
  | Z0 => None
  | Zpos p => Some (Qred (Qmake n p))
  | Zneg p => Some (Qred (Qmake (- n) p))
  end.
