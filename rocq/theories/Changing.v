(** * Changing: loading while other programs write to the files (specification).

    The time at which a file is opened and read is the number of files the load has opened before.  [H n] is the file
    system at the moment [n].  Opening and reading a file (char_stream.rs:28-37, parse/util.rs:73-81) is one step. *)
From Verif Require Export Locality IncSpec.
Open Scope N_scope.

Definition moment (log : list event) : nat := List.length (opens log).

Section C.
Context `{U : Unicode}.
(** [File::open] and [read_to_string] (char_stream.rs:28-37, parse/util.rs:73-81) when the files change: the contents are
    those at the moment of opening. *)
Definition open_during (H : nat -> fsys) (path : str) (sh : shared) : (str + perr) * shared :=
  open_file (H (moment (sh_log sh))) path sh.
(** parser.rs:53-57 and 41-44, obj.rs:325-327 and 146-148: the functions of Parser.v, except for how a file is opened.
    Simplification: [is_file] and [canonicalize] (parser.rs:1107-1124) ask the file system of the moment 0, so they are
    right only if the names of the files do not change during the load ([only_contents_change]). *)
Definition parse_obj_str_during (H : nat -> fsys) (g : gstate) (text : str) : outcome obj * shared :=
  str_with (open_during H) (H 0%nat) g text.
Definition parse_obj_file_during (H : nat -> fsys) (g : gstate) (path : str) : outcome obj * shared :=
  file_with (open_during H) (H 0%nat) g path.
Definition from_str_during (H : nat -> fsys) (g : gstate) (text : str) : option (ores obj) :=
  to_ores (fst (parse_obj_str_during H g text)).
Definition from_file_during (H : nat -> fsys) (g : gstate) (path : str) : option (ores obj) :=
  to_ores (fst (parse_obj_file_during H g path)).
End C.

(** The same paths name the same files. *)
Definition same_names (fs fs' : fsys) : Prop :=
  (forall p, fs_resolve fs p = fs_resolve fs' p) /\ (forall p, fs_open_err fs p = fs_open_err fs' p) /\
  map fe_canon (fs_files fs) = map fe_canon (fs_files fs').
(** What is written to the files, and whether they can be read, changes in any way; names and links stay. *)
Definition only_contents_change (H : nat -> fsys) : Prop := forall n, same_names (H 0%nat) (H n).
(** What reading the file at [p] gives: its text or an error. *)
Definition text_at (fs : fsys) (p : str) : option (str + str) := option_map (fun x => fe_read (snd x)) (fs_entry fs p).
(** [fs] has, in each file that the load with the events [log] opened, what was in it at the moment it was opened. *)
Definition snapshot (H : nat -> fsys) (log : list event) (fs : fsys) : Prop :=
  same_names (H 0%nat) fs /\
  forall p later earlier, is_file fs p = true -> log = later ++ EOpen (canon fs p) :: earlier ->
    text_at fs p = text_at (H (moment earlier)) p.
