(** * LexSpec: what can be seen in a text by one pass over its characters, without a grammar.
    Used to state C25, C26, C27 and C41 for every text, not only for the texts of the grammar. *)
From Verif Require Import Base.
From Verif Require Export Syntax.
Open Scope N_scope.

(** ** Where a character stands: in the code, in a comment, in a string, after a backslash in a string *)
Inductive mode := Code | Comment | Quoted | Escaped.
Definition step (m : mode) (c : char) : mode :=
  match m with
  | Code => if c =? c_hash then Comment else if c =? c_quote then Quoted else Code
  | Comment => if c =? c_nl then Code else Comment
  | Quoted => if c =? c_quote then Code else if c =? c_bslash then Escaped else Quoted
  | Escaped => Quoted
  end.
Definition mode_after (t : str) : mode := fold_left step t Code.

(** ** Brackets of the code *)
Definition closer (c : char) : option char :=
  if c =? c_lbrack then Some c_rbrack else if c =? c_lparen then Some c_rparen
  else if c =? c_lbrace then Some c_rbrace else if c =? c_lt then Some c_gt else None.
Definition is_closer (c : char) : bool := (c =? c_rbrack) || (c =? c_rparen) || (c =? c_rbrace) || (c =? c_gt).

(** The brackets still to be closed after a text, innermost first; None: a bracket was closed that was not
    the last one opened. *)
Fixpoint open_brackets (m : mode) (st : list char) (t : str) : option (list char) :=
  match t with
  | [] => Some st
  | c :: t' =>
    match m with
    | Code =>
      match closer c with
      | Some b => open_brackets (step m c) (b :: st) t'
      | None =>
        if is_closer c then
          match st with
          | b :: st' => if b =? c then open_brackets (step m c) st' t' else None
          | [] => None
          end
        else open_brackets (step m c) st t'
      end
    | _ => open_brackets (step m c) st t'
    end
  end.

(** How many brackets are open at the character where most are; n are open at the start. *)
Fixpoint deepest (m : mode) (n : N) (t : str) : N :=
  match t with
  | [] => n
  | c :: t' =>
    N.max n (deepest (step m c)
      (match m with
       | Code => match closer c with Some _ => n + 1 | None => if is_closer c then n - 1 else n end
       | _ => n
       end) t')
  end.

(** ** The names before the colons outside all brackets, in the order of the text.  [cur] is what stands between the
    last white space and here, backwards. *)
Fixpoint top_names (m : mode) (n : N) (cur : str) (t : str) : list str :=
  match t with
  | [] => []
  | c :: t' =>
    match m with
    | Code =>
      match closer c with
      | Some _ => top_names (step m c) (n + 1) cur t'
      | None =>
        if is_closer c then top_names (step m c) (n - 1) cur t'
        else if 0 <? n then top_names (step m c) n cur t'
        else if c =? c_colon then rev cur :: top_names (step m c) n [] t'
        else if ch_is_whitespace c then top_names (step m c) n [] t'
        else top_names (step m c) n (c :: cur) t'
      end
    | _ => top_names (step m c) n (match m with Comment => [] | _ => cur end) t'
    end
  end.
Definition names_of (t : str) : list str := top_names Code 0 [] t.
(** A name of a field: not a global, not the parent. *)
Definition is_field_name (f : str) : bool :=
  match f with c :: _ => negb ((c =? c_at) || (c =? c_caret)) | [] => true end.

(** Sanity: *)
Example names_ex : names_of [97; 58; 123; 98; 58; 49; 125; 10; 35; 120; 58; 10; 64; 99; 58; 34; 58; 34]
  = [[97]; [64; 99]].
Proof. reflexivity. Qed.   (* a:{b:1} / #x: / @c:":" *)
Example deepest_ex : deepest Code 0 [97; 58; 91; 91; 34; 91; 34; 93; 93] = 2.
Proof. reflexivity. Qed.   (* a:[["["]] *)
