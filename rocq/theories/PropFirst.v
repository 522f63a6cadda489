(** * PropFirst: C73, the first fault is the one reported: what follows it does not matter. *)
From Verif Require Import FirstFault Locality FaultAll PropLoad PropFault PropBlame PropFiles.
From Coq Require String.
Import String.StringSyntax.
Open Scope N_scope.

Section P.
Context `{U : Unicode}.

(** A text of whole lines that is refused, and not because it ends too early, is refused with the same fault whatever
    is written after it; the process is left in the same state, and the same files were opened. *)
Theorem C73_text fs g t pe more : whole_lines t -> blame fs None IObj (init_sh g) t pe -> ~ too_short None pe ->
  blame fs None IObj (init_sh g) (t ++ more) pe /\
  from_str fs g (t ++ more) = Some (OErr (OE_ParseError (says pe))) /\
  snd (parse_obj_str fs g (t ++ more)) = snd (parse_obj_str fs g t).
Proof.
  intros Wt B N. destruct (str_total fs g t) as (r & sh & E & T). destruct (str_total fs g (t ++ more)) as (r' & sh' & E' & T').
  pose proof (proj2 (stream_blame fs None (init_sh g) t r sh ltac:(constructor) E T pe) B) as ->.
  assert (X : parse_obj_str fs g (t ++ more) = (Err pe, sh)).
  { refine (stream_fault more fs _ (stream_fuel t) (stream_fuel (t ++ more)) None t (init_sh g) pe sh _ Wt E N). unfold stream_fuel. rewrite app_length. lia. }
  rewrite E' in X. injection X as -> ->.
  split; [apply (stream_blame fs None (init_sh g) (t ++ more) (Err pe) sh ltac:(constructor) E' T'); reflexivity|].
  rewrite E, E'. unfold from_str. rewrite E'. split; reflexivity.
Qed.
(** So a text of whole lines that can be continued to one that loads, loads itself or ends too early. *)
Theorem C73_text_repair fs g t more o : whole_lines t -> from_str fs g (t ++ more) = Some (OOk o) ->
  (exists o', from_str fs g t = Some (OOk o')) \/
  exists l, from_str fs g t = Some (OErr (OE_ParseError (pkind_show (UnexpectedEnd l)))).
Proof.
  intros Wt L. destruct (str_total fs g t) as (r & sh & E & [[o' ->]|[pe ->]]).
  - left. exists o'. unfold from_str. rewrite E. reflexivity.
  - right. pose proof (proj1 (stream_blame fs None (init_sh g) t (Err pe) sh ltac:(constructor) E (or_intror (ex_intro _ pe eq_refl)) pe) eq_refl) as B.
    destruct pe as [f k].
    assert (D : {l | f = None /\ k = UnexpectedEnd l} + {~ too_short None (mkperr f k)}).
    { destruct f as [f|]; [right; intros [l X]; discriminate|].
      destruct k; try (right; intros [x X]; discriminate). left. eexists. auto. }
    destruct D as [(l & -> & ->)|D].
    + exists l. unfold from_str. rewrite E. reflexivity.
    + destruct (C73_text fs g t _ more Wt B D) as (_ & X & _). congruence.
Qed.

(** ** The text of a file *)
Section File.
Variables fs fs' : fsys.
Variable c : str.
Hypothesis S : same_except (eq c) fs fs'.
Definition was_opened (l : list event) : Prop := In (EOpen (Some c)) l.
Definition opened_again (b : list event) : Prop := exists rest, b = EOpen (Some c) :: rest /\ was_opened rest.
Lemma open_again p sh : was_opened (sh_log sh) ->
  same_or opened_again (sh_log sh) (lgh (open_file fs p sh)) (lgh (open_file fs' p sh)) (open_file fs p sh) (open_file fs' p sh).
Proof.
  intros Ps. pose proof (same_entry (eq c) fs fs' S p) as H. unfold open_file, lgh. destruct (fs_entry fs p) as [[i e]|], (fs_entry fs' p) as [[i' e']|]; try contradiction.
  - destruct H as [H1 H2]. rewrite <- H1.
    assert (L : forall r : str + str, sh_log (snd (match r with inl contents => (inl contents, log_ev (EOpen (fe_canon e)) sh)
       | inr msg => (@inr str perr (mkperr None (IoErrorKind msg)), log_ev (EOpen (fe_canon e)) sh) end)) = EOpen (fe_canon e) :: sh_log sh).
    { intros []; reflexivity. }
    rewrite !L. split; [apply ext_one|]. split; [apply ext_one|].
    destruct (fe_canon e) as [c'|] eqn:C; [|left; rewrite H2; [reflexivity|discriminate]].
    destruct (list_eq_dec N.eq_dec c c') as [Q|Q].
    + right. rewrite <- Q. exists (EOpen (Some c) :: sh_log sh). split; [|split; apply ext_refl]. exists (sh_log sh). split; [reflexivity|exact Ps].
    + left. rewrite H2; [reflexivity|]. intros c0 [= <-]. exact Q.
  - split; [apply ext_refl|]. split; [apply ext_refl|]. left. destruct S as (_ & S2 & _). rewrite S2. reflexivity.
Qed.
Lemma not_again l1 l2 : NoDup (opens l1) -> ~ diverged opened_again l1 l2.
Proof.
  intros D (b & (rest & -> & I) & [m ->] & _).
  assert (X : forall a b0, NoDup (opens (a ++ b0)) -> NoDup (opens b0)).
  { intros a b0. unfold opens. rewrite flat_map_app. induction (flat_map _ a) as [|y x IH]; cbn; auto. intros K. inversion K; auto. }
  apply X in D. cbn in D. inversion D as [|y x Ny _]. apply Ny. unfold opens. apply in_flat_map. exists (EOpen (Some c)). split; [exact I|left; reflexivity].
Qed.
Lemma opened_ext l l' : ext l l' -> was_opened l -> was_opened l'.
Proof. intros F I. exact (ext_incl _ _ F _ I). Qed.
Lemma again_load k ty p sh : was_opened (sh_log sh) ->
  same_or opened_again (sh_log sh) (lgh (load_file fs k ty p sh)) (lgh (load_file fs' k ty p sh)) (load_file fs k ty p sh) (load_file fs' k ty p sh).
Proof.
  rewrite <- !load_with_open. apply (loc_load_from opened_again was_opened opened_ext fs fs' _ _ (same_is_file _ _ _ S) (same_canon _ _ _ S) open_again).
Qed.
Lemma file_fault g path t more pe : canon fs path = Some c -> readable fs path t -> readable fs' path (t ++ more) -> whole_lines t ->
  fst (parse_obj_file fs g path) = Err pe -> ~ too_short (Some path) pe -> parse_obj_file fs' g path = parse_obj_file fs g path.
Proof.
  intros C Rd Rd' Wt E N. destruct (file_total fs g path t Rd) as (r & sh & E1 & E2 & T). destruct (file_total fs' g path (t ++ more) Rd') as (r' & sh' & E1' & E2' & T').
  rewrite E1 in E. cbn [fst] in E. subst r.
  assert (X : run_stream (parse_obj_stream fs (load_file fs (inc_fuel fs)) (stream_fuel (t ++ more))) (Some path) (t ++ more) (file_sh fs g path) = (Err pe, sh)).
  { refine (stream_fault more fs _ (stream_fuel t) (stream_fuel (t ++ more)) (Some path) t _ pe sh _ Wt E2 N). unfold stream_fuel. rewrite app_length. lia. }
  assert (Q : file_sh fs' g path = file_sh fs g path) by (unfold file_sh; rewrite <- (same_canon _ _ _ S); reflexivity).
  assert (Ps : was_opened (sh_log (file_sh fs g path))) by (unfold file_sh; rewrite C; left; reflexivity).
  destruct (loc_stream opened_again was_opened _ _ (Some path) (t ++ more) (file_sh fs g path) Ps
    (loc_obj_stream opened_again was_opened opened_ext fs fs' _ _ (same_is_file _ _ _ S) (same_canon _ _ _ S) (again_load (inc_fuel fs)) (stream_fuel (t ++ more))))
    as (_ & _ & Y).
  rewrite (same_fuel _ _ _ S), Q in E2'. rewrite X, E2' in Y. rewrite E1, E1'. destruct Y as [Y|Y]; [exact Y|]. exfalso.
  revert Y. apply not_again. unfold lgh. cbn [snd]. eapply (C23_each_file_opened_once fs g). right. exists path, (Err pe), sh.
  split; [exact E1|]. split; [reflexivity|]. split; [discriminate|reflexivity].
Qed.
End File.

(** The file at [path] gets more text, all other files stay as they are. *)
Theorem C73_file fs fs' g path c t more pe : canon fs path = Some c -> readable fs path t -> same_except (eq c) fs fs' -> readable fs' path (t ++ more) ->
  whole_lines t -> blame fs (Some path) IObj (file_sh fs g path) t pe -> ~ too_short (Some path) pe ->
  blame fs' (Some path) IObj (file_sh fs' g path) (t ++ more) pe /\
  from_file fs' g path = Some (OErr (OE_ParseError (says pe))) /\
  snd (parse_obj_file fs' g path) = snd (parse_obj_file fs g path).
Proof.
  intros C Rd S Rd' Wt B N.
  destruct (file_total fs g path t Rd) as (r & sh & E1 & E2 & T). destruct (file_total fs' g path (t ++ more) Rd') as (r' & sh' & E1' & E2' & T').
  pose proof (proj2 (stream_blame fs (Some path) (file_sh fs g path) t r sh ltac:(constructor) E2 T pe) B) as ->.
  pose proof (file_fault fs fs' c S g path t more pe C Rd Rd' Wt ltac:(rewrite E1; reflexivity) N) as X. rewrite X. rewrite E1, E1' in X. injection X as -> ->.
  split; [apply (stream_blame fs' (Some path) (file_sh fs' g path) (t ++ more) (Err pe) sh ltac:(constructor) E2' T'); reflexivity|].
  unfold from_file. rewrite E1'. split; reflexivity.
Qed.
Theorem C73_file_repair fs fs' g path c t more o : canon fs path = Some c -> readable fs path t -> same_except (eq c) fs fs' -> readable fs' path (t ++ more) ->
  whole_lines t -> from_file fs' g path = Some (OOk o) ->
  (exists o', from_file fs g path = Some (OOk o')) \/
  exists l, from_file fs g path = Some (OErr (OE_ParseError (says (mkperr (Some path) (UnexpectedEnd l))))).
Proof.
  intros C Rd S Rd' Wt L. destruct (file_total fs g path t Rd) as (r & sh & E1 & E2 & [[o' ->]|[pe ->]]).
  - left. exists o'. unfold from_file. rewrite E1. reflexivity.
  - right. pose proof (proj1 (stream_blame fs (Some path) (file_sh fs g path) t (Err pe) sh ltac:(constructor) E2 (or_intror (ex_intro _ pe eq_refl)) pe) eq_refl) as B.
    destruct pe as [f k].
    assert (D : {l | f = Some path /\ k = UnexpectedEnd l} + {~ too_short (Some path) (mkperr f k)}).
    { destruct k; try (right; intros [x X]; discriminate). destruct f as [f|]; [|right; intros [x X]; discriminate].
      destruct (list_eq_dec N.eq_dec f path) as [->|Q]; [left; eexists; auto|right; intros [x X]; congruence]. }
    destruct D as [(l & -> & ->)|D].
    + exists l. unfold from_file. rewrite E1. reflexivity.
    + destruct (C73_file fs fs' g path c t more _ C Rd S Rd' Wt B D) as (_ & X & _). congruence.
Qed.
End P.

(** ** Concrete cases *)
Section Ex.
#[local] Instance ascii : Unicode := {| u_alpha := fun _ => false; u_debug := fun c => [c] |}.
Definition twice : str := lit "a: 1
a: 2
".
(** The second field is refused, whatever follows, be it nonsense. *)
Example C73_ex : whole_lines twice /\ exists pe, blame no_fs None IObj (init_sh g0) twice pe /\ ~ too_short None pe /\
  says pe = lit "Duplicate field ""a"" at line 2, column 1" /\
  from_str no_fs g0 (twice ++ lit "}}}") = Some (OErr (OE_ParseError (says pe))).
Proof.
  split; [exists (removelast twice); reflexivity|].
  destruct (str_total no_fs g0 twice) as (r & sh & E & T).
  pose proof (stream_blame no_fs None (init_sh g0) twice r sh ltac:(constructor) E T) as H. vm_compute in E. injection E as <- <-.
  eexists. split; [apply H; reflexivity|]. split; [intros [l X]; discriminate|]. split; vm_compute; reflexivity.
Qed.
(** An object that is not closed: the fault goes away when the text goes on. *)
Example C73_ex_short : exists o, from_str no_fs g0 (lit "a: {
" ++ lit "b: 1}") = Some (OOk o) /\ from_str no_fs g0 (lit "a: {
") = Some (OErr (OE_ParseError (pkind_show (UnexpectedEnd 2)))).
Proof. eexists. split; vm_compute; reflexivity. Qed.
(** A text that does not end with a line break may go on within a word: its fault is not settled yet. *)
Example C73_ex_lines : exists o, from_str no_fs g0 (lit "a: tr" ++ lit "ue") = Some (OOk o) /\
  from_str no_fs g0 (lit "a: tr") = Some (OErr (OE_ParseError (lit "Variable ""tr"" at line 1, column 4 could not be found"))).
Proof. eexists. split; vm_compute; reflexivity. Qed.
(** A file with the two fields gets more text; the fault stays, also if that text includes files or is itself faulty. *)
Example C73_ex_file : forall more, canon (world twice text_b []) (lit "a") = Some (lit "/a") /\
  readable (world twice text_b []) (lit "a") twice /\
  same_except (eq (lit "/a")) (world twice text_b []) (world (twice ++ more) text_b []) /\
  readable (world (twice ++ more) text_b []) (lit "a") (twice ++ more) /\
  from_file (world twice text_b []) g0 (lit "a") = Some (OErr (OE_ParseError (lit "a: Duplicate field ""a"" at line 2, column 1"))) /\
  from_file (world (twice ++ more) text_b []) g0 (lit "a") = Some (OErr (OE_ParseError (lit "a: Duplicate field ""a"" at line 2, column 1"))).
Proof.
  intros more. set (fs := world twice text_b []). set (fs' := world (twice ++ more) text_b []).
  assert (C : canon fs (lit "a") = Some (lit "/a")) by reflexivity.
  assert (Rd : readable fs (lit "a") twice) by (eexists _, _; split; [vm_compute; reflexivity|]; split; [reflexivity|discriminate]).
  assert (S : same_except (eq (lit "/a")) fs fs').
  { split; [reflexivity|]. split; [reflexivity|]. repeat constructor. cbn. intros H. exfalso. apply (H _ eq_refl). reflexivity. }
  assert (Rd' : readable fs' (lit "a") (twice ++ more)).
  { exists 0%nat, (mkfe (Some (lit "/a")) (inl (twice ++ more))). split; [reflexivity|]. split; [reflexivity|discriminate]. }
  assert (F : from_file fs g0 (lit "a") = Some (OErr (OE_ParseError (lit "a: Duplicate field ""a"" at line 2, column 1")))) by (vm_compute; reflexivity).
  split; [exact C|]. split; [exact Rd|]. split; [exact S|]. split; [exact Rd'|]. split; [exact F|].
  destruct (file_total fs g0 (lit "a") twice Rd) as (r & sh & E1 & E2 & T).
  pose proof (stream_blame fs (Some (lit "a")) (file_sh fs g0 (lit "a")) twice r sh ltac:(constructor) E2 T) as H.
  assert (X : r = Err (mkperr (Some (lit "a")) (DuplicateField (lit "a") 2 1))) by (vm_compute in E1; injection E1 as <- _; reflexivity).
  destruct (C73_file fs fs' g0 (lit "a") (lit "/a") twice more _ C Rd S Rd' ltac:(exists (removelast twice); reflexivity) (proj1 (H _) X)) as (_ & Y & _); [intros [l Z]; discriminate|].
  exact Y.
Qed.
End Ex.
