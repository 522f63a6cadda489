(** * Path: the operations of [std::path] (Unix) that decide which file an include names. *)
From Verif Require Export Base.
From Coq Require String.
Import String.StringSyntax.
Open Scope N_scope.

(** The segments of a path: what is between the separators. *)
Fixpoint path_split (p : str) : list str :=
  match p with
  | [] => [[]]
  | c :: p' =>
      if c =? c_slash then [] :: path_split p'
      else match path_split p' with s :: l => (c :: s) :: l | [] => [[c]] end
  end.
(** ... and back. *)
Fixpoint path_unsplit (l : list str) : str :=
  match l with
  | [] => []
  | [s] => s
  | s :: l' => s ++ [c_slash] ++ path_unsplit l'
  end.
(** [Components::parse_single_component]: an empty segment and a dot are no component. *)
Definition seg_skipped (s : str) : bool := str_eqb s [] || str_eqb s (lit ".").
Fixpoint skip_segs (l : list str) : list str :=
  match l with
  | s :: l' => if seg_skipped s then skip_segs l' else l
  | [] => []
  end.
(** [Components::has_root], [Components::include_cur_dir] *)
Definition has_root (p : str) : bool := match p with c :: _ => c =? c_slash | [] => false end.
Definition include_cur_dir (p : str) : bool :=
  match p with
  | [c] => c =? c_dot
  | c :: d :: _ => (c =? c_dot) && (d =? c_slash)
  | [] => false
  end.
(** [Path::parent]: [Components::next_back] finds the last component; if it is a name, [..] or a leading dot, the
    parent is [Components::as_path] of the rest: what is before it without trailing separators and dots.
    A leading separator or dot is not part of the body that is searched. *)
Definition path_parent (p : str) : option str :=
  let '(head, body) := if has_root p || include_cur_dir p then (firstn 1 p, skipn 1 p) else ([], p) in
  match skip_segs (rev (path_split body)) with
  | _ :: rest => Some (head ++ path_unsplit (rev (skip_segs rest)))
  | [] => if include_cur_dir p then Some [] else None
  end.
(** [Path::join] ([PathBuf::push]) *)
Definition path_join (d p : str) : str :=
  if has_root p then p
  else match rev d with
       | [] => p
       | c :: _ => if c =? c_slash then d ++ p else d ++ [c_slash] ++ p
       end.
(** parser.rs:1094-1098: [Path::new(f).parent().unwrap().join(p)]; see [finish_include] for the [unwrap]. *)
Definition beside (f p : str) : str :=
  match path_parent f with Some d => path_join d p | None => p end.

(** As in the documentation of [std::path::Path::parent] and [join]. *)
Example parent_ex :
  map path_parent [lit "/foo/bar"; lit "/foo"; lit "/"; lit "foo/bar"; lit "foo"; lit ""; lit "./a"; lit "a//b/"; lit "a/./b/."; lit ".."; lit "."; lit "//"; lit "/./."] =
  [Some (lit "/foo"); Some (lit "/"); None; Some (lit "foo"); Some []; None; Some (lit "."); Some (lit "a"); Some (lit "a"); Some []; Some []; None; None].
Proof. reflexivity. Qed.
Example join_ex :
  map (fun p => path_join (fst p) (snd p)) [(lit "/etc", lit "passwd"); (lit "/etc", lit "/bin/sh"); (lit "", lit "a"); (lit "/", lit "a"); (lit "a", lit "../b")] =
  [lit "/etc/passwd"; lit "/bin/sh"; lit "a"; lit "/a"; lit "a/../b"].
Proof. reflexivity. Qed.
