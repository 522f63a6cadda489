(** * Afresh: the meaning of a project of several files without a cache (specification).

    No file is ever remembered: every include reads its file again and evaluates its contents again.  There is no
    include stack either; only the nesting of includes is bounded, by any number.  Files are given by what they
    contain, as syntax. *)
From Verif Require Export IncSem AgreeTop EvalProofs.
Open Scope N_scope.

(** What a file contains; it decides as what the file may be included. *)
Inductive contents :=
| CStr (text : str)
| CObj (items : list (str * expr))
| CArr (es : list expr)
| CTup (es : list expr).
Definition kind_in (c : contents) : inc_ty :=
  match c with CStr _ => IStr | CObj _ => IObj | CArr _ => IArr | CTup _ => ITup end.

Section Spec.
Context `{U : Unicode}.
Definition written (c : contents) (text : str) : Prop :=
  match c with CStr t => t = text | CObj items => r_doc items text | CArr es | CTup es => r_list es text end.

(** [ar full]: what the file with the canonical path [full] contains. *)
Definition archive := str -> option contents.
Definition describes (fs : fsys) (ar : archive) : Prop := forall path full c,
  canon fs path = Some full -> ar full = Some c -> exists text, readable fs path text /\ written c text.
(** The paths of one file have the same files beside them. *)
Definition coherent (fs : fsys) : Prop := forall path path' full q,
  canon fs path = Some full -> canon fs path' = Some full -> canon fs (beside path q) = canon fs (beside path' q).

(** Every include of the load with this log was of the kind of the file. *)
Definition respects (ar : archive) (log : list event) : Prop := forall full k v, In (EInc full k v) log ->
  exists c, ar full = Some c /\ kind_in c = k.

(** The value of the contents, if an include means [inc]. *)
Definition ev_contents (inc : inc_ty -> str -> ES value) (c : contents) : ES value :=
  match c with
  | CStr t => eret (VStr t)
  | CObj items => do o <- ev_doc inc limit64 items;; eret (VObj o)
  | CArr es => do a <- ev_arr_doc inc limit64 es;; eret (VArr a)
  | CTup es => do t <- ev_tup_doc inc limit64 es;; eret (VTup t)
  end.
(** [m] with no globals before; its globals are forgotten. *)
Definition apart {A} (m : ES A) : ES A := fun x =>
  match m ([], snd x) with Some (a, y) => Some (a, (fst x, snd y)) | None => None end.

Variables (fs : fsys) (ar : archive).
(** Including [p] as [k] in a text of [file], at most [n] includes inside each other. *)
Fixpoint afresh (n : nat) (file : option str) (k : inc_ty) (p : str) : ES value :=
  match n with
  | O => efail
  | S n =>
      match canon fs (target file p) with
      | Some full =>
          match ar full with
          | Some c => if kind_eqb k (kind_in c) then apart (ev_contents (afresh n (Some (target file p))) c) else efail
          | None => efail
          end
      | None => efail
      end
  end.
End Spec.
