(** * PropCases: more concrete cases that meet the hypotheses of theorems of other files. *)
From Verif Require Import PropLoad PropLang PropBlame PropMsg PropLayout Render PropRound.
From Coq Require String.
Import String.StringSyntax.
Open Scope N_scope.

Section Ex.
#[local] Instance ascii : Unicode := {| u_alpha := fun _ => false; u_debug := fun c => [c] |}.
Definition num (n : N) : expr := Ex (ANum [48 + n]) [].
Definition var (s : str) : expr := Ex (AVar false s) [].
(** C04: two files that include each other: both loads end, with an error. *)
Example C04_ex : exists e e', from_file ex_fs g0 (lit "c") = Some (OErr e) /\ from_file ex_fs g0 (lit "d") = Some (OErr e').
Proof. eexists. eexists. split; vm_compute; reflexivity. Qed.
(** C16: 1 + 2 * 3 - 4 / 2 - -1 is read as ((1 + 2*3) - 4/2) - -1, that is the Frac 6. *)
Definition chain16 : expr := Ex (ANum [49]) [(BPlus, ANum [50]); (BMult, ANum [51]); (BMinus, ANum [52]); (BDiv, ANum [50]); (BMinus, AUn UMinus (ANum [49]))].
Definition tree16 : tree value :=
  Node BMinus (Node BMinus (Node BPlus (Leaf (VInt 1)) (Node BMult (Leaf (VInt 2)) (Leaf (VInt 3)))) (Node BDiv (Leaf (VInt 4)) (Leaf (VInt 2)))) (Leaf (VInt (-1))).
Example C16_ex : exists v vs x y o,
  legal_field (lit "f") /\ r_expr chain16 (show_expr chain16) /\ ws [32] /\
  operand_values (include_meaning no_fs None) chain16 ([], init_sh g0) = Some ((v, vs), x) /\ List.length vs = 5%nat /\
  paren_free tree16 /\ flat tree16 = (v, vs) /\ tree_value tree16 x = Some (VFrac (Qmake 6 1), y) /\
  from_str no_fs g0 (lit "f" ++ lit ":" ++ [32] ++ show_expr chain16) = Some (OOk o) /\ obj_get o (lit "f") = Some (VFrac (Qmake 6 1)).
Proof.
  do 5 eexists. split; [apply legal_field_intro; try reflexivity; discriminate|]. split; [apply (proj2 show_ok); reflexivity|]. split; [apply ws_char; [reflexivity|constructor]|].
  split; [vm_compute; reflexivity|]. split; [reflexivity|]. split; [|split; [reflexivity|]].
  - cbn. unfold tight, loose. repeat split; intros; try congruence; repeat match goal with H : _ \/ _ |- _ => destruct H end; try discriminate;
      repeat match goal with H : Some _ = Some _ |- _ => injection H as <- end; intros [X|X]; discriminate X.
  - split; [vm_compute; reflexivity|]. split; [vm_compute; reflexivity|]. reflexivity.
Qed.
(** C39: a document with a meaning, and one without. *)
Definition doc39 : list (str * expr) := [(lit "a", chain16); (lit "b", Ex (AArr [var (lit "a"); var (lit "a")]) []); (lit "^", Ex (AObj [(lit "c", var (lit "null"))]) [])].
Example C39_ex : exists o x, r_doc doc39 (show_items doc39) /\
  ev_doc (include_meaning no_fs None) limit64 doc39 ([], init_sh g0) = Some (o, x) /\ from_str no_fs g0 (show_items doc39) = Some (OOk o) /\ obj_len o = 2.
Proof. do 2 eexists. split; [apply show_doc; reflexivity|]. split; [vm_compute; reflexivity|]. split; [vm_compute; reflexivity|reflexivity]. Qed.
Definition bad39 : list (str * expr) := [(lit "a", num 1); (lit "b", Ex (ANum [49]) [(BDiv, ANum [48])])].
Example C39_ex_none : exists e, r_doc bad39 (show_items bad39) /\
  ev_doc (include_meaning no_fs None) limit64 bad39 ([], init_sh g0) = None /\ from_str no_fs g0 (show_items bad39) = Some (OErr e).
Proof. eexists. split; [apply show_doc; reflexivity|]. split; vm_compute; reflexivity. Qed.
(** C24: the first include of a file in a load. *)
Example C24_ex : exists log cyc v later earlier, load_log ex_fs g0 log cyc /\ log = later ++ EInc (lit "/b") IObj v :: earlier /\
  (forall ty' v', ~ In (EInc (lit "/b") ty' v') earlier) /\ of_kind ex_fs (lit "/b") IObj v /\ In (EInc (lit "/b") IStr v) later.
Proof.
  destruct (parse_obj_file ex_fs g0 (lit "a")) as [r sh] eqn:E.
  assert (L : r <> Panic -> load_log ex_fs g0 (sh_log sh) (match r with Err e => is_cyc (e_kind e) | _ => false end)) by (intros N; right; exists (lit "a"), r, sh; auto).
  vm_compute in E. inversion E; subst. specialize (L ltac:(discriminate)). cbn [sh_log] in L.
  match type of L with load_log _ _ (?a :: ?b :: ?c :: ?d) _ => exists (a :: b :: c :: d) end. do 2 eexists.
  match type of L with load_log _ _ (?a :: ?b :: EInc ?f IObj ?v :: ?e) _ => exists [a; b], e end.
  split; [exact L|]. split; [reflexivity|]. split.
  - intros ty' v' H. cbn in H. repeat destruct H as [H|H]; try discriminate; auto.
  - split; [|cbn; auto]. eapply C24_first_include_kind with (later := [_; _]) (log := _ :: _ :: _); [exact L|reflexivity|].
    intros ty' v' H. cbn in H. repeat destruct H as [H|H]; try discriminate; auto.
Qed.
End Ex.
