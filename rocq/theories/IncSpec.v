(** * IncSpec: specification of includes in terms of the event log of one load.

    The log (newest event first) records every file opened, every finished file, every include
    requested and the value of every include. *)
From Verif Require Export PosSpec Parser.
Open Scope N_scope.

(** canonical paths of the files opened / finished, newest first *)
Definition opens (log : list event) : list (option str) :=
  flat_map (fun e => match e with EOpen c => [c] | _ => [] end) log.
Definition dones (log : list event) : list (option str) :=
  flat_map (fun e => match e with EDone c => [c] | _ => [] end) log.

(** The file with canonical path [c] is being parsed: opened and not finished. *)
Definition in_progress (c : str) (log : list event) : Prop :=
  In (Some c) (opens log) /\ ~ In (Some c) (dones log).

(** Somewhere in the log an include of a file in progress was requested; [after] is what
    happened afterwards. *)
Definition cyclic_request (log after : list event) : Prop :=
  exists c before, log = after ++ ETry c :: before /\ in_progress c before.

(** Is it the cyclic-include error? *)
Definition is_cyc (k : pkind) : bool := match k with CyclicInclude _ _ _ => true | _ => false end.

(** [v] is a value of the kind [ty] asks for; for Str, the text of the file itself. *)
Definition of_kind (fs : fsys) (c : str) (ty : inc_ty) (v : value) : Prop :=
  match ty with
  | IObj => exists o, v = VObj o
  | IArr => exists a, v = VArr a
  | ITup => exists t, v = VTup t
  | IStr => exists e text, In e (fs_files fs) /\ fe_canon e = Some c /\ fe_read e = inl text /\
                           v = VStr text
  end.

(** The first include of a file has the kind it asks for; every later one of the same file gives
    the same value (the same instance: ids included), whatever kind it asks for. *)
Definition includes_ok (fs : fsys) (log : list event) : Prop :=
  forall l1 l2 c ty v, log = l1 ++ EInc c ty v :: l2 ->
    ((forall ty' v', ~ In (EInc c ty' v') l2) -> of_kind fs c ty v) /\
    (forall ty' v', In (EInc c ty' v') l2 -> v' = v).

(** An error located in the text of an included file, which the error names. *)
Definition error_in_file (fs : fsys) (e : perr) : Prop :=
  exists path i fe text, fs_entry fs path = Some (i, fe) /\ fe_read fe = inl text /\
    e_file e = Some path /\ located text (e_kind e).
(** The I/O error of a file that exists but cannot be read. *)
Definition error_unreadable (fs : fsys) (e : perr) : Prop :=
  exists path i fe msg, fs_entry fs path = Some (i, fe) /\ fe_read fe = inr msg /\
    e = mkperr None (IoErrorKind msg).
