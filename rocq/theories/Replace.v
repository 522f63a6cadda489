(** * Replace: files with the same data (specification). *)
From Verif Require Export Afresh Share.
Open Scope N_scope.

(** No part of [v] is one of the keyword Objs (C37) of a process in state [g]. *)
Definition keyword_free (g : gstate) (v : value) : Prop :=
  forall p i k, part p v -> id_of p = Some i -> g_sent g k <> Some i.

Section Spec.
Context `{U : Unicode}.
(** The file with the canonical path [full] has a value of its own, with the data [w] and no keyword in it. *)
Definition worth (fs : fsys) (ar : archive) (full : str) (w : value) : Prop := exists n path c h v x,
  canon fs path = Some full /\ ar full = Some c /\ g_ok (sh_g h) /\
  ev_contents (afresh fs ar n (Some path)) c ([], h) = Some (v, x) /\ erase v = erase w /\ keyword_free (sh_g (snd x)) v.
(** Every file contains the same as before (in whatever layout), or something of the same kind and the same data. *)
Definition same_data (fs fs' : fsys) (ar ar' : archive) : Prop := forall full, ar full = ar' full \/
  exists w c c', worth fs ar full w /\ worth fs' ar' full w /\ ar full = Some c /\ ar' full = Some c' /\ kind_in c = kind_in c'.
(** The file at [path] loads to [o], including every file as what it is, and without keywords in the result. *)
Definition loads_well (fs : fsys) (ar : archive) (path : str) (o : obj) : Prop := exists g,
  g_ok g /\ from_file fs g path = Some (OOk o) /\ respects ar (sh_log (snd (parse_obj_file fs g path))) /\
  keyword_free (sh_g (snd (parse_obj_file fs g path))) (VObj o).
End Spec.
