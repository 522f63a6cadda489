(** * Sizes: how large one part of a value is (specification). *)
From Verif Require Export ValueSpec.
Open Scope Z_scope.

(** The value itself, not what it contains, is within level [b]: a Str has at most 2^b characters, an Arr or Tup at
    most 2^b elements, an Obj at most 2^b fields of its own; an Int, and the numerator and denominator of a Frac, are
    at most 16^(4^b), that is, have at most 1 + 4^b hexadecimal digits. *)
Definition within_level (b : Z) (v : value) : Prop :=
  match v with
  | VNull | VBool _ => True
  | VInt z => Z.abs z <= 16 ^ (4 ^ b)
  | VFrac q => Z.abs (Qnum q) <= 16 ^ (4 ^ b) /\ Zpos (Qden q) <= 16 ^ (4 ^ b)
  | VStr s => Z.of_nat (length s) <= 2 ^ b
  | VArr a => Z.of_nat (length (arr_values a)) <= 2 ^ b
  | VTup t => Z.of_nat (length (tup_values t)) <= 2 ^ b
  | VObj o => Z.of_nat (length (obj_pairs o)) <= 2 ^ b
  end.
(** The value and everything inside it, at any depth, parents included. *)
Definition small (b : Z) (v : value) : Prop := forall w, part w v -> within_level b w.
