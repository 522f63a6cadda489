(** * Disk: writing files byte by byte, with errors and crashes. *)
From Verif Require Export Parser Format.
From Coq Require Import Lia List.
Import ListNotations.
From Coq Require String.
Import String.StringSyntax.
Open Scope N_scope.

(** ** UTF-8 (of Rust's [String]: as_bytes, read_to_string) *)
Notation byte := N.
Definition scalar (c : char) : Prop := c < 55296 \/ 57344 <= c /\ c < 1114112.
(** A Rust [String]. *)
Definition rust_string (t : str) : Prop := Forall scalar t.

Definition utf8_char (c : char) : list byte :=
  if c <? 128 then [c]
  else if c <? 2048 then [192 + c / 64; 128 + c mod 64]
  else if c <? 65536 then [224 + c / 4096; 128 + c / 64 mod 64; 128 + c mod 64]
  else [240 + c / 262144; 128 + c / 4096 mod 64; 128 + c / 64 mod 64; 128 + c mod 64].
Definition utf8 (t : str) : list byte := flat_map utf8_char t.

Definition cont (b : byte) : bool := (128 <=? b) && (b <? 192).
Definition consc (c : char) (o : option str) : option str := option_map (cons c) o.
(** The validation of [read_to_string]: shortest forms only, no surrogates. *)
Fixpoint decode (bs : list byte) : option str :=
  match bs with
  | [] => Some []
  | b0 :: r0 =>
      if b0 <? 128 then consc b0 (decode r0)
      else if b0 <? 194 then None
      else
        match r0 with
        | [] => None
        | b1 :: r1 =>
            if negb (cont b1) then None
            else if b0 <? 224 then consc ((b0 - 192) * 64 + (b1 - 128)) (decode r1)
            else
              match r1 with
              | [] => None
              | b2 :: r2 =>
                  if negb (cont b2) then None
                  else if b0 <? 240 then
                    let c := (b0 - 224) * 4096 + (b1 - 128) * 64 + (b2 - 128) in
                    if (c <? 2048) || (55296 <=? c) && (c <? 57344) then None else consc c (decode r2)
                  else
                    match r2 with
                    | [] => None
                    | b3 :: r3 =>
                        if negb (cont b3) then None
                        else
                          let c := (b0 - 240) * 262144 + (b1 - 128) * 4096 + (b2 - 128) * 64 + (b3 - 128) in
                          if (c <? 65536) || (1114112 <=? c) || (245 <=? b0) then None else consc c (decode r3)
                    end
              end
        end
  end.
Definition invalid_utf8 : str := lit "stream did not contain valid UTF-8".
(** What [read_to_string] gives for a file with these bytes. *)
Definition read_bytes (bs : list byte) : str + str :=
  match decode bs with Some t => inl t | None => inr invalid_utf8 end.

(** ** Writing *)

(** Replace the contents of file number [i]. *)
Fixpoint set_nth {A} (l : list A) (i : nat) (x : A) : list A :=
  match l, i with
  | [], _ => []
  | _ :: l', O => x :: l'
  | y :: l', S j => y :: set_nth l' j x
  end.
Definition put_bytes (fs : fsys) (i : nat) (bs : list byte) : fsys :=
  match nth_error (fs_files fs) i with
  | Some e => mkfs (fs_resolve fs) (set_nth (fs_files fs) i (mkfe (fe_canon e) (read_bytes bs))) (fs_open_err fs)
  | None => fs
  end.

(** A write in progress.  [WStart]: nothing done; [WOpen i done todo]: file number [i] is open and
    holds the bytes [done]; [WEnd]: write_to_file has returned. *)
Inductive wstate :=
| WStart
| WOpen (i : nat) (done todo : list byte)
| WEnd (r : ores unit).

Section Write.
Variables (path : str) (contents : str).

(** The steps of src/util.rs:29-36 [write_file_str] as called by src/obj.rs:159-162 [write_to_file].
    A crash may come after any step.  What the operating system does is nondeterministic. *)
Inductive wstep : wstate * fsys -> wstate * fsys -> Prop :=
(** [File::create] fails: [From<io::Error> for OverError], src/error.rs:55-59. *)
| w_create_err fs msg : wstep (WStart, fs) (WEnd (OErr (OE_IoError msg)), fs)
(** [File::create] truncates an existing file *)
| w_truncate fs i e : fs_entry fs path = Some (i, e) ->
    wstep (WStart, fs) (WOpen i [] (utf8 contents), put_bytes fs i [])
(** or makes a new one, with some canonical path; all paths that had a meaning keep it. *)
| w_create fs resolve canon : fs_entry fs path = None -> path_parent path <> None ->
    resolve path = Some (length (fs_files fs)) ->
    (forall q j, fs_resolve fs q = Some j -> q <> path -> resolve q = Some j) ->
    wstep (WStart, fs) (WOpen (length (fs_files fs)) [] (utf8 contents),
                        mkfs resolve (fs_files fs ++ [mkfe canon (inl [])]) (fs_open_err fs))
(** [write_all]: each [write] appends some of the remaining bytes *)
| w_write fs i done some todo : some <> [] ->
    wstep (WOpen i done (some ++ todo), fs) (WOpen i (done ++ some) todo, put_bytes fs i (done ++ some))
(** or fails; *)
| w_write_err fs i done todo msg : todo <> [] ->
    wstep (WOpen i done todo, fs) (WEnd (OErr (OE_IoError msg)), fs)
(** when nothing remains the file is closed. *)
| w_done fs i done : wstep (WOpen i done [], fs) (WEnd (OOk tt), fs).

(** The states that can be reached: what a crash can leave. *)
Inductive wreach (fs0 : fsys) : wstate -> fsys -> Prop :=
| wr_start : wreach fs0 WStart fs0
| wr_step w fs w' fs' : wreach fs0 w fs -> wstep (w, fs) (w', fs') -> wreach fs0 w' fs'.
End Write.

(** src/obj.rs:159-162 [Obj::write_to_file]: the file systems it can leave with its result. *)
Definition write_to_file (fs0 : fsys) (o : obj) (path : str) (r : ores unit) (fs : fsys) : Prop :=
  exists text, write_to_string o = Some text /\ wreach path text fs0 (WEnd r) fs.
(** What a crash in the middle of it can leave. *)
Definition crash_in_write (fs0 : fsys) (o : obj) (path : str) (fs : fsys) : Prop :=
  exists text w, write_to_string o = Some text /\ wreach path text fs0 w fs.
