(** * AlphaSpec: exchanging the names of two globals in a text. *)
From Verif Require Export LexSpec.
Open Scope N_scope.

Section A.
Context `{U : Unicode}.
(** A character of a name. *)
Definition word_char (c : char) : bool := ch_is_alphabetic c || (c =? c_under) || is_digit c.
Definition swap (x y n : str) : str := if str_eqb n x then y else if str_eqb n y then x else n.

(** Every [@] of the code, with the name right behind it: the name is replaced by [r name].  [w]: the name read so far
    after an [@], if one was just read. *)
Fixpoint rename (r : str -> str) (m : mode) (w : option str) (t : str) : str :=
  match t with
  | [] => match w with Some n => r n | None => [] end
  | c :: t' =>
    match w with
    | Some n =>
      if word_char c then rename r m (Some (n ++ [c])) t'
      else r n ++ c :: rename r (step m c) (if c =? c_at then Some [] else None) t'
    | None => c :: rename r (step m c) (match m with Code => if c =? c_at then Some [] else None | _ => None end) t'
    end
  end.
(** Exchange the names [@x] and [@y] everywhere in the code of a text. *)
Definition swap_globals (x y : str) (t : str) : str := rename (swap x y) Code None t.
(** The name of a global, without the [@]. *)
Definition global_name (n : str) : Prop := exists c r, n = c :: r /\ letter c /\ Forall letter_or_digit r.
End A.
