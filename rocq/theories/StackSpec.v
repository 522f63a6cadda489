(** * StackSpec: how long a chain of signs and dots is, and how many brackets there are.

    No parser here: only characters.  Used by the theorem on the call stack (PropStack.v). *)
From Verif Require Export Base.
From Coq Require String.
Import String.StringSyntax.
Open Scope N_scope.

(** White space, quote, comment, colon and brackets separate chains. *)
Definition separates (c : char) : bool :=
  ch_is_whitespace c || existsb (N.eqb c) (c_quote :: lit "#:()[]{}<>").
(** A sign or a dot. *)
Definition is_link (c : char) : bool := existsb (N.eqb c) (lit "+-.").
Definition links (t : str) : N := N.of_nat (length (filter is_link t)).
(** No stretch of [text] without separators has more than [w] signs and dots. *)
Definition chains_at_most (w : N) (text : str) : Prop :=
  forall a b c, text = a ++ b ++ c -> forallb (fun x => negb (separates x)) b = true -> links b <= w.

(** The opening brackets and parentheses in a text. *)
Definition brackets (t : str) : N := N.of_nat (length (filter (fun c => (c =? c_lbrack) || (c =? c_lparen)) t)).
