(** * PropHeader: C72, lines put before the texts of a project move the reported lines and change nothing else. *)
From Verif Require Import Header FaultAll PropLoad PropFault PropBlame.
From Coq Require String.
Import String.StringSyntax.
Open Scope N_scope.

Section P.
Context `{U : Unicode}.

(** No file that got a header is included as text (as a Str) in the events [log]: the text of such a file is a value of
    the project, and a header changes it. *)
Definition no_header_in_text (pre : nat -> str) (fs : fsys) (log : list event) : Prop :=
  forall i e c v, nth_error (fs_files fs) i = Some e -> fe_canon e = Some c -> In (EInc c IStr v) log -> pre i = [].

Lemma not_hit pre fs log : no_header_in_text pre fs log -> ~ hit (has_header pre fs) log.
Proof. intros N (c & v & (i & e & E & C & P) & I). apply P. eapply N; eauto. Qed.

(** A text, and the same text after [w], in a project whose files got headers: the same Obj, the same ids drawn, the same
    files opened in the same order; or the same fault of the same file, further down by the lines put before that file,
    in the same column. *)
Theorem C72_text pre fs fs' g w text : header w -> with_headers pre fs fs' ->
  no_header_in_text pre fs (sh_log (snd (parse_obj_str fs g text))) ->
  snd (parse_obj_str fs' g (w ++ text)) = snd (parse_obj_str fs g text) /\
  (forall o, from_str fs' g (w ++ text) = Some (OOk o) <-> from_str fs g text = Some (OOk o)) /\
  (forall e, from_str fs g text = Some (OErr e) -> exists pe pe',
     further_down (shift_of pre fs (lines w)) pe pe' /\
     blame fs None IObj (init_sh g) text pe /\ e = OE_ParseError (says pe) /\
     blame fs' None IObj (init_sh g) (w ++ text) pe' /\ from_str fs' g (w ++ text) = Some (OErr (OE_ParseError (says pe')))).
Proof.
  intros Hw Hd N. destruct (str_lower pre fs fs' Hd (lines w) w g text Hw eq_refl) as [F|[F|[F1 F2]]].
  - exfalso. exact (proj1 (C04_loading_terminates fs g) text F).
  - exfalso. exact (not_hit _ _ _ N F).
  - destruct (str_total fs g text) as (r & sh & E & T). destruct (str_total fs' g (w ++ text)) as (r' & sh' & E' & T').
    pose proof (stream_blame fs None (init_sh g) text r sh ltac:(constructor) E T) as H.
    pose proof (stream_blame fs' None (init_sh g) (w ++ text) r' sh' ltac:(constructor) E' T') as H'.
    unfold from_str. rewrite E, E' in *. cbn [fst snd] in *. split; [exact F1|].
    destruct r as [o|pe| |], r' as [o'|pe'| |]; cbn [orel] in F2; try contradiction.
    + subst o'. split; [reflexivity|]. discriminate.
    + split; [split; discriminate|]. intros e X. cbn in X. injection X as <-. exists pe, pe'.
      split; [exact F2|]. split; [apply H; reflexivity|]. split; [reflexivity|]. split; [apply H'; reflexivity|reflexivity].
    + split; [reflexivity|]. discriminate.
Qed.
Theorem C72_file pre fs fs' g path : with_headers pre fs fs' ->
  no_header_in_text pre fs (sh_log (snd (parse_obj_file fs g path))) ->
  snd (parse_obj_file fs' g path) = snd (parse_obj_file fs g path) /\
  (forall o, from_file fs' g path = Some (OOk o) <-> from_file fs g path = Some (OOk o)) /\
  (forall e, from_file fs g path = Some (OErr e) -> exists pe pe',
     further_down (shift_of pre fs 0) pe pe' /\ e = OE_ParseError (says pe) /\
     from_file fs' g path = Some (OErr (OE_ParseError (says pe'))) /\
     (forall t, readable fs path t -> blame fs (Some path) IObj (file_sh fs g path) t pe) /\
     (forall t, readable fs' path t -> blame fs' (Some path) IObj (file_sh fs' g path) t pe')).
Proof.
  intros Hd N. destruct (file_lower pre fs fs' Hd 0 g path) as [F|[F|[F1 F2]]].
  - exfalso. exact (proj2 (C04_loading_terminates fs g) path F).
  - exfalso. exact (not_hit _ _ _ N F).
  - assert (B : forall fs pe sh, parse_obj_file fs g path = (Err pe, sh) -> forall t, readable fs path t -> blame fs (Some path) IObj (file_sh fs g path) t pe).
    { intros fs1 pe sh E t Rd. destruct (file_total fs1 g path t Rd) as (r & sh1 & E1 & E2 & T). rewrite E in E1. injection E1 as <- <-.
      apply (stream_blame fs1 (Some path) (file_sh fs1 g path) t (Err pe) sh ltac:(constructor) E2 T). reflexivity. }
    pose proof (B fs) as B1. pose proof (B fs') as B2. clear B. unfold from_file.
    destruct (parse_obj_file fs g path) as [r sh]. destruct (parse_obj_file fs' g path) as [r' sh']. cbn [fst snd] in *. split; [exact F1|].
    destruct r as [o|pe| |], r' as [o'|pe'| |]; cbn [orel] in F2; try contradiction.
    + subst o'. split; [reflexivity|]. discriminate.
    + split; [split; discriminate|]. intros e X. cbn in X. injection X as <-. exists pe, pe'.
      split; [exact F2|]. split; [reflexivity|]. split; [reflexivity|]. split; [exact (B1 pe sh eq_refl)|exact (B2 pe' sh' eq_refl)].
    + split; [reflexivity|]. discriminate.
Qed.
(** The text alone: only it gets a header, the files are as they were. *)
Lemma header_nil : header [].
Proof. split; [constructor|auto]. Qed.
Lemma no_headers fs : with_headers (fun _ => []) fs fs.
Proof.
  split; [intros; apply header_nil|]. split; [reflexivity|]. split; [reflexivity|]. split; [reflexivity|]. intros i e E. exists e. split; [exact E|].
  split; [reflexivity|]. destruct (fe_read e); reflexivity.
Qed.
Theorem C72_top fs g w text : header w ->
  (forall o, from_str fs g (w ++ text) = Some (OOk o) <-> from_str fs g text = Some (OOk o)) /\
  (forall e, from_str fs g text = Some (OErr e) -> exists pe pe',
     further_down (fun file => match file with None => lines w | Some _ => 0 end) pe pe' /\
     e = OE_ParseError (says pe) /\ from_str fs g (w ++ text) = Some (OErr (OE_ParseError (says pe')))).
Proof.
  intros Hw. destruct (C72_text (fun _ => []) fs fs g w text Hw (no_headers fs)) as (_ & H1 & H2).
  { intros i e c v _ _ _. reflexivity. }
  split; [exact H1|]. intros e E. destruct (H2 e E) as (pe & pe' & M & _ & E1 & _ & E2). exists pe, pe'. split; [|auto].
  assert (Z : forall file, shift_of (fun _ => []) fs (lines w) file = match file with None => lines w | Some _ => 0 end).
  { intros [p|]; [|reflexivity]. cbn. destruct (fs_entry fs p) as [[]|]; reflexivity. }
  destruct M as [f k K|f e0 l c]; rewrite Z; [apply (moved_kind (fun file => match file with None => lines w | Some _ => 0 end) f k K)|apply (moved_over (fun file => match file with None => lines w | Some _ => 0 end) f e0 l c)].
Qed.
End P.

(** ** Concrete cases *)
Section Ex.
#[local] Instance ascii : Unicode := {| u_alpha := fun _ => false; u_debug := fun c => [c] |}.
Definition lic : str := lit "# (c) nobody
# all rights reserved

".
Example C72_ex_header : header lic /\ lines lic = 3.
Proof.
  split; [|reflexivity]. split.
  - change lic with (c_hash :: lit " (c) nobody" ++ c_nl :: (c_hash :: lit " all rights reserved" ++ c_nl :: [c_nl])).
    apply ws_comment; [repeat constructor; discriminate|]. apply ws_comment; [repeat constructor; discriminate|]. repeat constructor.
  - right. exists (removelast lic). reflexivity.
Qed.
(** The files of [blame_fs]: the first gets three lines, the second one. *)
Definition ex_pre (i : nat) : str := match i with O => lic | 1%nat => [c_nl] | _ => [] end.
Definition ex_headed : fsys :=
  mkfs (fs_resolve blame_fs)
    [ mkfe (Some (lit "/a")) (inl (lic ++ lit "u: {x: 1" ++ c_nl :: lit " y: [x null]}"));
      mkfe (Some (lit "/b")) (inl (c_nl :: lit "u: <" ++ quoted (lit "b") ++ lit ">"));
      mkfe (Some (lit "/c")) (inr (lit "permission denied")) ]
    (fs_open_err blame_fs).
Example C72_ex_project : with_headers ex_pre blame_fs ex_headed.
Proof.
  split; [intros [|[|i]]; [apply C72_ex_header|split; [repeat constructor|right; exists []; reflexivity]|apply header_nil]|].
  split; [reflexivity|]. split; [reflexivity|]. split; [reflexivity|].
  intros [|[|[|[|i]]]] e E; try discriminate E; injection E as <-; (eexists; split; [reflexivity|]; split; reflexivity).
Qed.
Example C72_ex :
  let text := lit "p: <" ++ quoted (lit "a") ++ lit ">" in
  no_header_in_text ex_pre blame_fs (sh_log (snd (parse_obj_str blame_fs g0 text))) /\
  from_str blame_fs g0 text = Some (OErr (OE_ParseError (lit "a: Expected Int at line 2, column 8; found Null"))) /\
  from_str ex_headed g0 (c_nl :: text) = Some (OErr (OE_ParseError (lit "a: Expected Int at line 5, column 8; found Null"))) /\
  from_str ex_headed g0 (c_nl :: lit "p: [1]  q: p.2") = Some (OErr (OE_ParseError (lit "Arr index 2 out of bounds at line 2, col 14"))).
Proof.
  cbv zeta. split; [|split; [|split]; vm_compute; reflexivity].
  intros i e c v _ _ I. exfalso. revert I.
  assert (N : forall l, forallb (fun ev => match ev with EInc _ IStr _ => false | _ => true end) l = true -> ~ In (EInc c IStr v) l).
  { intros l H I. rewrite forallb_forall in H. apply H in I. discriminate. }
  apply N. vm_compute. reflexivity.
Qed.
(** A file that is read as text: its header is part of the value. *)
Example C72_ex_text : exists o o',
  from_str blame_fs g0 (lit "p: <Str " ++ quoted (lit "a") ++ lit ">") = Some (OOk o) /\
  from_str ex_headed g0 (lit "p: <Str " ++ quoted (lit "a") ++ lit ">") = Some (OOk o') /\ obj_pairs o <> obj_pairs o'.
Proof. eexists. eexists. split; [vm_compute; reflexivity|]. split; [vm_compute; reflexivity|]. discriminate. Qed.
End Ex.
