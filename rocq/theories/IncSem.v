(** * IncSem: the meaning of includes as a specification, without the parser, fuel or bookkeeping.

    Of the state shared by the files of one load only two components matter: the values of the files loaded so
    far ([sh_vals]) and the process state ([sh_g]).  The other two are bookkeeping of the implementation and
    of the model's event log; the specification leaves them unconstrained. *)
From Verif Require Export Syntax.
Open Scope N_scope.

Section Spec.
Context `{U : Unicode}.
Variable fs : fsys.

(** The path of a file included as [p]: relative to the file around, if there is one. *)
Definition target (file : option str) (p : str) : str :=
  match file with Some f => beside f p | None => p end.

(** Same files loaded, same process state. *)
Definition same_state (sh sh' : shared) : Prop := sh_vals sh = sh_vals sh' /\ sh_g sh = sh_g sh'.

(** The value of a file read as [k], if includes inside it mean [inc]. *)
Inductive file_value (inc : inc_ty -> str -> ES value) : inc_ty -> str -> shared -> value -> shared -> Prop :=
| fv_str text sh : file_value inc IStr text sh (VStr text) sh
| fv_obj text sh d o gl sh' : r_doc d text -> ev_doc inc limit64 d ([], sh) = Some (o, (gl, sh')) ->
    file_value inc IObj text sh (VObj o) sh'
| fv_arr text sh es a gl sh' : r_list es text -> ev_arr_doc inc limit64 es ([], sh) = Some (a, (gl, sh')) ->
    file_value inc IArr text sh (VArr a) sh'
| fv_tup text sh es t gl sh' : r_list es text -> ev_tup_doc inc limit64 es ([], sh) = Some (t, (gl, sh')) ->
    file_value inc ITup text sh (VTup t) sh'.

(** States in which every value of a file loaded before is well formed (in reality all, C07). *)
Definition sane (sh : shared) : Prop := Forall (fun p => wf_value good_names (snd p)) (sh_vals sh).

(** [includes chain file k p x v y]: in a text of [file], while the files [chain] (canonical paths, the current
    file included) are being loaded, including [p] as [k] in state [x] gives [v] and the state [y].
    A file in the chain cannot be included.  The first include of a file reads it as the kind asked for; any
    later include gives the same value.  The globals of the including file are neither seen nor changed. *)
Inductive includes : list str -> option str -> inc_ty -> str -> est -> value -> est -> Prop :=
| inc_again chain file k p gl sh v sh' full :
    canon fs (target file p) = Some full -> ~ In full chain ->
    assoc full (sh_vals sh) = Some v -> same_state sh sh' ->
    includes chain file k p (gl, sh) v (gl, sh')
| inc_first chain file k p gl sh v sh' full i fe text sh0 sh1 (inc : inc_ty -> str -> ES value) :
    canon fs (target file p) = Some full -> ~ In full chain ->
    assoc full (sh_vals sh) = None ->
    fs_entry fs (target file p) = Some (i, fe) -> fe_read fe = inl text ->
    (forall k' p' x w y, sane (snd x) -> inc k' p' x = Some (w, y) ->
       includes (full :: chain) (Some (target file p)) k' p' x w y) ->
    same_state sh sh0 -> file_value inc k text sh0 v sh1 ->
    same_state (mksh ((full, v) :: sh_vals sh1) [] [] (sh_g sh1)) sh' ->
    includes chain file k p (gl, sh) v (gl, sh').

(** [text], loaded in a process in state [g] as (the contents of) [file], is the Obj [o]. *)
Definition loads (chain : list str) (file : option str) (g : gstate) (text : str) (o : obj) : Prop :=
  exists d inc sh0 y, r_doc d text /\
    (forall k p x w z, sane (snd x) -> inc k p x = Some (w, z) -> includes chain file k p x w z) /\
    same_state (init_sh g) sh0 /\ ev_doc inc limit64 d ([], sh0) = Some (o, y).
End Spec.
