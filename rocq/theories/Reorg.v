(** * Reorg: reorganizing a project of several files (specification).

    Two projects: files [fs] with contents [ar] (Afresh.v), and files [fs'] with contents [ar'].  A text of the second
    is a text of the first in which, at any places and any number of times,
    - an include of a file is an include of the file that stands for it, by whatever path (files renamed, moved,
      duplicated or merged),
    - a literal is an include of a file with the contents of the literal (moved out), or
    - an include is a literal with the contents of the file (moved in). *)
From Verif Require Export Afresh Refactor PropOps.
Open Scope N_scope.

(** null, true, false, Obj, Str, Arr, Tup: they look like names but do not read anything. *)
Definition is_word (n : str) : bool := match assoc n constants, assoc n keywords with None, None => false | _, _ => true end.
Definition outer (l : list str) : list str := filter (fun n => negb (is_word n)) l.

(** [a] is a literal with these contents. *)
Inductive literal : atom -> contents -> Prop :=
| literal_obj its : literal (AObj its) (CObj its)
| literal_arr es : literal (AArr es) (CArr es)
| literal_tup es : literal (ATup es) (CTup es)
| literal_str cs t : str_value cs = Some t -> literal (AStr cs) (CStr t).
(** It uses no name from outside and defines no global. *)
Definition alone (a : atom) : Prop := outer (reads_atom a) = [] /\ defines_atom a = [].
(** [e] is <"p"> or <Kw "p">, an include of the path [p] as [k]. *)
Inductive includes_path : inc_ty -> atom -> str -> Prop :=
| ip_short cs p : str_value cs = Some p -> includes_path IObj (AInc (Ex (AStr cs) []) None) p
| ip_long k kw cs p : assoc kw keywords = Some k -> str_value cs = Some p ->
    includes_path k (AInc (Ex (AVar false kw) []) (Some (Ex (AStr cs) []))) p.
(** How deep brackets are nested in a file. *)
Definition nest_contents (c : contents) : N :=
  match c with CStr _ => 0 | CObj its => nest_doc its | CArr es | CTup es => top (map nest_expr es) end.

Section Spec.
Variables (fs fs' : fsys) (ar ar' : archive).
(** [twin full full']: the second file stands for the first. *)
Variable twin : str -> str -> Prop.
(** Whether brackets may be nested deeper than before. *)
Variable deeper : bool.

(** Every path means, in a text of [f'], what stands for what it means in a text of [f]. *)
Definition around (f f' : option str) : Prop := forall p full, canon fs (target f p) = Some full ->
  exists full', canon fs' (target f' p) = Some full' /\ twin full full'.

(** [re_atom f f' a a']: in a text of the file [f'] (or in no file), [a'] is what [a] was in a text of [f]. *)
Inductive re_atom : option str -> option str -> atom -> atom -> Prop :=
| re_num f f' w : re_atom f f' (ANum w) (ANum w)
| re_str f f' cs : re_atom f f' (AStr cs) (AStr cs)
| re_var f f' g n : re_atom f f' (AVar g n) (AVar g n)
| re_dot f f' g n a a' : re_atom f f' a a' -> re_atom f f' (ADot g n a) (ADot g n a')
| re_un f f' op a a' : re_atom f f' a a' -> re_atom f f' (AUn op a) (AUn op a')
| re_arr f f' es es' : re_list f f' es es' -> re_atom f f' (AArr es) (AArr es')
| re_tup f f' es es' : re_list f f' es es' -> re_atom f f' (ATup es) (ATup es')
| re_obj f f' its its' : re_items f f' its its' -> re_atom f f' (AObj its) (AObj its')
| re_inc f f' e e' : around f f' -> re_expr f f' e e' -> re_atom f f' (AInc e None) (AInc e' None)
| re_inc2 f f' e e' p p' : around f f' -> re_expr f f' e e' -> re_expr f f' p p' -> re_atom f f' (AInc e (Some p)) (AInc e' (Some p'))
(* another path *)
| re_path f f' k e e' p p' full full' : includes_path k e p -> includes_path k e' p' ->
    canon fs (target f p) = Some full -> canon fs' (target f' p') = Some full' -> twin full full' -> re_atom f f' e e'
(* moved out *)
| re_out f f' a c e p full' c' : literal a c -> alone a -> includes_path (kind_in c) e p -> (kind_in c = IStr -> deeper = true) ->
    canon fs' (target f' p) = Some full' -> ar' full' = Some c' -> re_contents f (Some (target f' p)) c c' -> re_atom f f' a e
(* moved in *)
| re_in f f' a e p full c a' c' : deeper = true -> literal a c -> literal a' c' -> alone a -> includes_path (kind_in c) e p ->
    canon fs (target f p) = Some full -> ar full = Some c -> re_contents (Some (target f p)) f' c c' -> re_atom f f' e a'
with re_expr : option str -> option str -> expr -> expr -> Prop :=
| re_Ex f f' a a' l l' : re_atom f f' a a' -> re_ops f f' l l' -> re_expr f f' (Ex a l) (Ex a' l')
with re_ops : option str -> option str -> list (binop * atom) -> list (binop * atom) -> Prop :=
| re_ops_nil f f' : re_ops f f' [] []
| re_ops_cons f f' op a a' l l' : re_atom f f' a a' -> re_ops f f' l l' -> re_ops f f' ((op, a) :: l) ((op, a') :: l')
with re_list : option str -> option str -> list expr -> list expr -> Prop :=
| re_nil f f' : re_list f f' [] []
| re_cons f f' e e' l l' : re_expr f f' e e' -> re_list f f' l l' -> re_list f f' (e :: l) (e' :: l')
with re_items : option str -> option str -> list (str * expr) -> list (str * expr) -> Prop :=
| re_items_nil f f' : re_items f f' [] []
| re_items_cons f f' h e e' l l' : re_expr f f' e e' -> re_items f f' l l' -> re_items f f' ((h, e) :: l) ((h, e') :: l')
with re_contents : option str -> option str -> contents -> contents -> Prop :=
| re_cstr f f' t : re_contents f f' (CStr t) (CStr t)
| re_cobj f f' its its' : re_items f f' its its' -> re_contents f f' (CObj its) (CObj its')
| re_carr f f' es es' : re_list f f' es es' -> re_contents f f' (CArr es) (CArr es')
| re_ctup f f' es es' : re_list f f' es es' -> re_contents f f' (CTup es) (CTup es').

(** Every file that has a twin: its twin contains the same, reorganized. *)
Definition reorganized : Prop := forall full full' c, twin full full' -> ar full = Some c -> exists c',
  ar' full' = Some c' /\ (forall path path', canon fs path = Some full -> canon fs' path' = Some full' ->
    re_contents (Some path) (Some path') c c').
(** Brackets are nested no deeper than before, or not too deep. *)
Definition not_too_deep : Prop := deeper = true -> forall full c, ar' full = Some c -> nest_contents c <= 63.
End Spec.
