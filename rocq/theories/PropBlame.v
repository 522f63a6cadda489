(** * PropBlame: C52, a load fails exactly when the text, or a file it includes, has a fault, and with that error. *)
From Verif Require Import FaultAll PropLoad PropFault.
From Coq Require String.
Import String.StringSyntax.
Open Scope N_scope.

Section P.
Context `{U : Unicode}.

Lemma stream_blame fs file sh text r sh' : wfvals sh ->
  run_stream (parse_obj_stream fs (load_file fs (inc_fuel fs)) (stream_fuel text)) file text sh = (r, sh') ->
  (exists o, r = Ok o) \/ (exists e, r = Err e) ->
  forall e, r = Err e <-> blame fs file IObj sh text e.
Proof.
  intros W E T e. unfold run_stream in E. split.
  - intros ->. destruct (parse_obj_stream fs _ _ _) as [o s] eqn:Es. injection E as -> <-.
    apply (blame_complete fs (inc_fuel fs) (le_n _) file IObj sh text (stream_fuel text) e s W).
    cbn [stream_code]. unfold bind. rewrite Es. reflexivity.
  - intros B. apply blame_sound in B. apply (root_mb fs file IObj e sh text (stream_fuel text) W) in B.
    cbn [stream_code] in B. unfold mb, bind in B. destruct (parse_obj_stream fs _ _ _) as [o s]. injection E as -> <-.
    destruct T as [[o ->]|[e' ->]]; [contradiction|]. congruence.
Qed.

(** What the message of a fault looks like: the path of the file it is in (none for a text that is not in a file), then
    the words of the fault (pinned to a table in C53_texts). *)
Definition says (pe : perr) : str := match e_file pe with Some path => path ++ lit ": " | None => [] end ++ pkind_show (e_kind pe).

(** A text is refused exactly when it, or a file it includes, has a fault; the error is the one of the fault. *)
Theorem C52_refused_iff_fault fs g text e :
  from_str fs g text = Some (OErr e) <-> exists pe, blame fs None IObj (init_sh g) text pe /\ e = OE_ParseError (says pe).
Proof.
  destruct (str_total fs g text) as (r & sh & E & T). unfold from_str. rewrite E. cbn [fst].
  pose proof (stream_blame fs None (init_sh g) text r sh ltac:(constructor) E T) as H.
  split.
  - destruct T as [[o ->]|[pe ->]]; [discriminate|]. intros X. injection X as <-. exists pe. split; [apply H; reflexivity|reflexivity].
  - intros (pe & B & ->). apply H in B as ->. reflexivity.
Qed.
Theorem C52_file_refused_iff_fault fs g path text e : readable fs path text ->
  from_file fs g path = Some (OErr e) <->
  exists pe, blame fs (Some path) IObj (file_sh fs g path) text pe /\ e = OE_ParseError (says pe).
Proof.
  intros Rd. destruct (file_total fs g path text Rd) as (r & sh & E & E' & T). unfold from_file. rewrite E. cbn [fst].
  pose proof (stream_blame fs (Some path) (file_sh fs g path) text r sh ltac:(constructor) E' T) as H.
  split.
  - destruct T as [[o ->]|[pe ->]]; [discriminate|]. intros X. injection X as <-. exists pe. split; [apply H; reflexivity|reflexivity].
  - intros (pe & B & ->). apply H in B as ->. reflexivity.
Qed.
(** There is at most one. *)
Theorem C52_one_fault fs g text e1 e2 : blame fs None IObj (init_sh g) text e1 -> blame fs None IObj (init_sh g) text e2 -> e1 = e2.
Proof.
  intros B1 B2. destruct (str_total fs g text) as (r & sh & E & T).
  pose proof (stream_blame fs None (init_sh g) text r sh ltac:(constructor) E T) as H. apply H in B1, B2. congruence.
Qed.
(** A text without fault loads. *)
Theorem C52_accepted_iff_no_fault fs g text :
  (exists o, from_str fs g text = Some (OOk o)) <-> ~ exists pe, blame fs None IObj (init_sh g) text pe.
Proof.
  destruct (str_total fs g text) as (r & sh & E & T). unfold from_str. rewrite E. cbn [fst].
  pose proof (stream_blame fs None (init_sh g) text r sh ltac:(constructor) E T) as H. split.
  - intros [o X] [pe B]. apply H in B as ->. discriminate.
  - intros N. destruct T as [[o ->]|[pe ->]]; [exists o; reflexivity|]. exfalso. apply N. exists pe. apply H. reflexivity.
Qed.
(** A text that can include nothing has its fault itself. *)
Theorem C52_no_files fs g text e : (forall p, canon fs p = None) ->
  from_str fs g text = Some (OErr e) <-> exists k, faulty fs None IObj ([], init_sh g) text k /\ e = OE_ParseError (pkind_show k).
Proof.
  intros N. rewrite C52_refused_iff_fault. split.
  - intros (pe & B & ->). inversion B as [? ? ? ? k F|? ? ? ? ty f x full i fe t' e' A [C _]|? ? ? ? ty f x full i fe m A [C _]]; subst;
      [|rewrite N in C; discriminate|rewrite N in C; discriminate].
    exists k. split; auto.
  - intros (k & F & ->). exists (mkperr None k). split; [apply blame_here; exact F|reflexivity].
Qed.
End P.

(** ** Concrete cases: a fault of the text, one of a file it includes, a cycle and a file that cannot be read. *)
Section Ex.
#[local] Instance ascii : Unicode := {| u_alpha := fun _ => false; u_debug := fun c => [c] |}.
Definition quoted (t : str) : str := c_quote :: t ++ [c_quote].
Definition blame_fs : fsys :=
  mkfs (fun p => match p with [97] => Some 0%nat | [98] => Some 1%nat | [99] => Some 2%nat | _ => None end)
    [ mkfe (Some (lit "/a")) (inl (lit "u: {x: 1" ++ c_nl :: lit " y: [x null]}"));
      mkfe (Some (lit "/b")) (inl (lit "u: <" ++ quoted (lit "b") ++ lit ">"));
      mkfe (Some (lit "/c")) (inr (lit "permission denied")) ]
    (fun _ => lit "no such file").
Example blame_ex :
  blame blame_fs None IObj (init_sh g0) (lit "p: 1 q: p.r") (mkperr None (InvalidDot TInt 1 9)) /\
  blame blame_fs None IObj (init_sh g0) (lit "p: <" ++ quoted (lit "a") ++ lit ">") (mkperr (Some (lit "a")) (ExpectedType TInt TNull 2 8)) /\
  blame blame_fs None IObj (init_sh g0) (lit "p: <" ++ quoted (lit "b") ++ lit ">") (mkperr (Some (lit "b")) (CyclicInclude (lit "b") 1 5)) /\
  blame blame_fs None IObj (init_sh g0) (lit "p: <" ++ quoted (lit "c") ++ lit ">") (mkperr None (IoErrorKind (lit "permission denied"))) /\
  ~ exists pe, blame blame_fs None IObj (init_sh g0) (lit "p: <Str " ++ quoted (lit "a") ++ lit ">") pe.
Proof.
  assert (H : forall text r sh' e, run_stream (parse_obj_stream blame_fs (load_file blame_fs (inc_fuel blame_fs)) (stream_fuel text)) None text (init_sh g0) = (r, sh') ->
    r = Err e -> blame blame_fs None IObj (init_sh g0) text e).
  { intros text r sh' e E ->. eapply stream_blame; [|exact E| |reflexivity]; [constructor|right; eauto]. }
  repeat split; try (eapply H; vm_compute; reflexivity).
  apply C52_accepted_iff_no_fault. eexists. vm_compute. reflexivity.
Qed.
(** What a user sees. *)
Example blame_messages :
  from_str blame_fs g0 (lit "p: <" ++ quoted (lit "a") ++ lit ">") =
    Some (OErr (OE_ParseError (lit "a: Expected Int at line 2, column 8; found Null"))) /\
  from_str blame_fs g0 (lit "p: <" ++ quoted (lit "c") ++ lit ">") = Some (OErr (OE_ParseError (lit "permission denied"))).
Proof. vm_compute. auto. Qed.
End Ex.

Print Assumptions C52_refused_iff_fault.
Print Assumptions C52_file_refused_iff_fault.
Print Assumptions C52_one_fault.
Print Assumptions C52_accepted_iff_no_fault.
Print Assumptions C52_no_files.
