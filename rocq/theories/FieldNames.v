(** * FieldNames: exchanging the names of two fields in a text, in the files of a project and in data (specification). *)
From Verif Require Export AlphaSpec Afresh.
Open Scope N_scope.

Section F.
Context `{U : Unicode}.

(** ** In data: the names of the fields of all Objs, also of parents. *)
Fixpoint ren_value (r : str -> str) (v : value) : value :=
  match v with
  | VArr (MkArr i t vs) => VArr (MkArr i t (map (ren_value r) vs))
  | VTup (MkTup i ts vs) => VTup (MkTup i ts (map (ren_value r) vs))
  | VObj o => VObj (ren_obj r o)
  | _ => v
  end
with ren_obj (r : str -> str) (o : obj) : obj :=
  match o with
  | MkObj i ps par =>
      MkObj i (map (fun p => match p with (f, v) => (r f, ren_value r v) end) ps)
        match par with Some p => Some (ren_obj r p) | None => None end
  end.
Definition exchanged (x y : str) (o : obj) : obj := ren_obj (swap x y) o.

(** ** In texts: every name in the code that is not the name of a global *)

(** What is being read: nothing in particular, a name, a number, or what follows an [@] or a [^]. *)
Inductive token := TNothing | TName (n : str) | TNumber | TMark.
Definition goes_on (k : token) (c : char) : bool :=
  match k with
  | TNothing => false
  | TName _ => word_char c
  | TNumber => word_char c || num_char c
  | TMark => word_char c || (c =? c_caret)
  end.
(** What begins with a character that is not a letter. *)
Definition begins (c : char) : token :=
  if num_char c then TNumber else if (c =? c_at) || (c =? c_caret) then TMark else TNothing.
(** A dot right after a name. *)
Definition dot_after (k : token) (c : char) : bool :=
  match k with TName _ | TMark => c =? c_dot | _ => false end.
Fixpoint rename_names (r : str -> str) (m : mode) (k : token) (t : str) : str :=
  match t with
  | [] => match k with TName n => r n | _ => [] end
  | c :: t' =>
      match m with
      | Code =>
          if goes_on k c then
            match k with TName n => rename_names r Code (TName (n ++ [c])) t' | _ => c :: rename_names r Code k t' end
          else
            match k with TName n => r n | _ => [] end ++
            if dot_after k c then c :: rename_names r Code TNothing t'
            else if ch_is_alphabetic c || (c =? c_under) then rename_names r Code (TName [c]) t'
            else c :: rename_names r (step Code c) (begins c) t'
      | _ => c :: rename_names r (step m c) TNothing t'
      end
  end.
(** Exchange the names [x] and [y] of fields everywhere in the code of a text. *)
Definition swap_fields (x y : str) (t : str) : str := rename_names (swap x y) Code TNothing t.

(** ** In the contents of files, as syntax *)
Definition ren_item_f (r : str -> str) (f : str) : str :=
  match f with c :: _ => if (c =? c_at) || (c =? c_caret) then f else r f | [] => [] end.
Fixpoint fa (r : str -> str) (a : atom) : atom :=
  match a with
  | ANum _ | AStr _ => a
  | AVar g n => AVar g (if g then n else r n)
  | ADot g n sub => ADot g (if g then n else r n) (fa r sub)
  | AUn op a => AUn op (fa r a)
  | AArr es => AArr (map (fe r) es)
  | ATup es => ATup (map (fe r) es)
  | AObj its => AObj (map (fun p => (ren_item_f r (fst p), fe r (snd p))) its)
  | AInc e p => AInc (fe r e) (match p with Some e2 => Some (fe r e2) | None => None end)
  end
with fe (r : str -> str) (e : expr) : expr :=
  match e with Ex a l => Ex (fa r a) (map (fun p => (fst p, fa r (snd p))) l) end.
Definition fi (r : str -> str) (its : list (str * expr)) : list (str * expr) := map (fun p => (ren_item_f r (fst p), fe r (snd p))) its.
Definition fc (r : str -> str) (c : contents) : contents :=
  match c with CStr t => CStr t | CObj its => CObj (fi r its) | CArr es => CArr (map (fe r) es) | CTup es => CTup (map (fe r) es) end.

(** ** In the files of a project: [fs'] is [fs] with the names exchanged in every file of the archive, except in files that
    are included as text.  Files that are not in the archive may be anything. *)
Definition files_exchanged (x y : str) (ar : archive) (fs fs' : fsys) : Prop := forall path,
  canon fs' path = canon fs path /\
  forall full c text, canon fs path = Some full -> ar full = Some c -> readable fs path text ->
    readable fs' path (match c with CStr _ => text | _ => swap_fields x y text end).
(** The load with this log included nothing. *)
Definition no_includes (log : list event) : Prop := forall full k v, ~ In (EInc full k v) log.
End F.
