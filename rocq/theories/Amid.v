(** * Amid: loading while other programs create, delete and rewrite files (specification).

    Every time the load asks the file system something it may be another one: [H t] is the file system at the time [t].
    A load asks: is there a file at a path (time [tick log]), what is its canonical path ([tick log + 1]), what is the canonical
    path of the file that is being read ([tick log + 2]), and it opens a file ([tick log + 3]), where [log] is what happened
    before; something happens between any two such questions of the same kind, so all questions are asked at different times. *)
From Verif Require Export AnyInc Changing IncSem.
From Coq Require String.
Import String.StringSyntax.
Open Scope N_scope.

Definition tick (log : list event) : nat := (4 * List.length log)%nat.

Section Amid.
Context `{U : Unicode}.
Variable H : nat -> fsys.
Definition now (k : nat) (sh : shared) : fsys := H (tick (sh_log sh) + k)%nat.

(** parser.rs:1083-1155, as [finish_include] in Parser.v *)
Definition finish_amid (load_inc : inc_ty -> str -> shared -> outcome value * shared)
  (include_type : inc_ty) (include_file : str) (line col : N) : M value :=
  let* file := getfile in
  let* _ := assert_ (has_parent file) in
  let path := match file with Some f => beside f include_file | None => include_file end in
  let* sh := get_sh in
  if negb (is_file (now 0 sh) path) then fail (InvalidIncludePath include_file line col)
  else
    match canon (now 1 sh) path with
    | None => fail (InvalidIncludePath include_file line col)
    | Some full_path =>
        let* sh := get_sh in
        let* _ := put_sh (log_ev (ETry full_path) sh) in
        let* storing :=
          (match file with
           | Some f =>
               let* sh := get_sh in
               match canon (now 2 sh) f with
               | None => panic             (* canonicalize().unwrap().to_str().unwrap() *)
               | Some full_file =>
                   let* sh := get_sh in
                   let* _ := put_sh (mksh (sh_vals sh)
                                          (if mem_str full_file (sh_open sh) then sh_open sh
                                           else full_file :: sh_open sh)
                                          (sh_log sh) (sh_g sh)) in
                   ret (Some full_file)
               end
           | None => ret None
           end) in
        let* sh := get_sh in
        if mem_str full_path (sh_open sh) then fail (CyclicInclude include_file line col)
        else
          let* value :=
            (match assoc full_path (sh_vals sh) with
             | Some v => ret v
             | None =>
                 let* v := run_include load_inc include_type path in
                 let* sh := get_sh in
                 let* _ := put_sh (mksh ((full_path, v) :: sh_vals sh) (sh_open sh)
                                        (sh_log sh) (sh_g sh)) in
                 ret v
             end) in
          let* sh := get_sh in
          let* _ :=
            (match storing with
             | Some f =>
                 put_sh (mksh (sh_vals sh)
                              (filter (fun x => negb (str_eqb x f)) (sh_open sh))
                              (sh_log sh) (sh_g sh))
             | None => ret tt
             end) in
          let* sh := get_sh in
          let* _ := put_sh (log_ev (EInc full_path include_type value) sh) in
          ret value
    end.

(** char_stream.rs:28-37, parse/util.rs:73-81.  Opening and reading a file is one step. *)
Definition open_amid (path : str) (sh : shared) : (str + perr) * shared := open_file (now 3 sh) path sh.
(** Instrument: log the end of a successful parse of a file (with the canonical path it was opened with). *)
Definition done_amid {A : Type} (o : option str) (r : outcome A * shared) : outcome A * shared :=
  match r with (Ok a, sh) => (Ok a, log_ev (EDone o) sh) | _ => r end.

(** [load_file] in Parser.v.  [k] bounds the depth of nested includes. *)
Fixpoint load_amid (k : nat) (ty : inc_ty) (path : str) (sh : shared) {struct k} : outcome value * shared :=
  match k with
  | O => (NoFuel, sh)
  | S k' =>
      let o := canon (now 3 sh) path in
      match open_amid path sh with
      | (inr e, sh) => (Err e, sh)
      | (inl contents, sh) =>
          let fuel := stream_fuel contents in
          done_amid o
          match ty with
          | IStr => (Ok (VStr contents), sh)
          | IObj => let '(o, sh) := run_stream (am_parse_obj_stream (finish_amid (load_amid k')) fuel) (Some path) contents sh in (omap VObj o, sh)
          | IArr => let '(o, sh) := run_stream (am_parse_arr_stream (finish_amid (load_amid k')) fuel) (Some path) contents sh in (omap VArr o, sh)
          | ITup => let '(o, sh) := run_stream (am_parse_tup_stream (finish_amid (load_amid k')) fuel) (Some path) contents sh in (omap VTup o, sh)
          end
      end
  end.
(** parser.rs:53-57 and 41-44 with includes nested at most [k] deep. *)
Definition parse_obj_str_amid (k : nat) (g : gstate) (contents : str) : outcome obj * shared :=
  run_stream (am_parse_obj_stream (finish_amid (load_amid k)) (stream_fuel contents)) None contents (init_sh g).
Definition parse_obj_file_amid (k : nat) (g : gstate) (path : str) : outcome obj * shared :=
  match open_amid path (init_sh g) with
  | (inr e, sh) => (Err e, sh)
  | (inl contents, sh) => run_stream (am_parse_obj_stream (finish_amid (load_amid k)) (stream_fuel contents)) (Some path) contents sh
  end.
(** obj.rs:325-327 [Obj::from_str] and 146-148 [Obj::from_file] *)
Definition from_str_amid (k : nat) (g : gstate) (contents : str) : option (ores obj) := to_ores (fst (parse_obj_str_amid k g contents)).
Definition from_file_amid (k : nat) (g : gstate) (path : str) : option (ores obj) := to_ores (fst (parse_obj_file_amid k g path)).
End Amid.

(** [fs] has, at any path, the file that [all] has there (the contents may be others) or no file. *)
Definition some_of (all fs : fsys) : Prop :=
  (forall p i e, fs_entry fs p = Some (i, e) -> exists e', fs_entry all p = Some (i, e') /\ fe_canon e' = fe_canon e) /\
  (forall p, fs_open_err fs p = fs_open_err all p).
(** Files are created, deleted and rewritten at any time; a path never leads to two different files of [all]. *)
Definition come_and_go (all : fsys) (H : nat -> fsys) : Prop := forall t, some_of all (H t).
(** [fs] has, at the paths of [all], the same files as [all], and in each file that the load with the events [log] opened
    what was in it when it was opened. *)
Definition seen (all : fsys) (H : nat -> fsys) (log : list event) (fs : fsys) : Prop :=
  same_names all fs /\
  forall p later earlier, log = later ++ EOpen (canon fs p) :: earlier -> is_file (H (tick earlier + 3)%nat) p = true ->
    text_at fs p = text_at (H (tick earlier + 3)%nat) p.

(** How a load can end because a file of [all] is not there when it is needed. *)
Inductive lost (all : fsys) (H : nat -> fsys) {A : Type} : outcome A -> Prop :=
(** the included file is not found: the error of a path that leads to no file *)
| lost_include t file name line col :
    is_file all (target file name) = true -> is_file (H t) (target file name) = false ->
    lost all H (Err (mkperr file (InvalidIncludePath name line col)))
(** it was found but is gone when it is opened (or the file given to [from_file] is not there): the error of the system *)
| lost_open t p :
    is_file all p = true -> is_file (H t) p = false ->
    lost all H (Err (mkperr None (IoErrorKind (fs_open_err all p))))
(** the file that contains the include is gone: [canonicalize().unwrap()] (parser.rs:1124) panics *)
| lost_including t p :
    is_file all p = true -> is_file (H t) p = false -> lost all H Panic.
