(** * PropLang: properties of the language, C16-C21, C25-C30, C37, C39.

    Texts are given by the grammar of Syntax.v ([r_expr e t]: the text [t] is the expression [e]). *)
From Verif Require Import LangSpec PropLoad.
From Coq Require String.
Import String.StringSyntax.
Open Scope N_scope.

Section P.
Context `{U : Unicode}.

(** ** C39: loading a text of the grammar gives exactly the meaning of the document. *)
Theorem C39_load_is_meaning fs g items text : r_doc items text ->
  (forall o, from_str fs g text = Some (OOk o) <->
     exists x, ev_doc (include_meaning fs None) limit64 items ([], init_sh g) = Some (o, x)) /\
  ((exists e, from_str fs g text = Some (OErr e)) <->
     ev_doc (include_meaning fs None) limit64 items ([], init_sh g) = None).
Proof. intros H. split; [intros o; apply (str_ok fs g items text H)|apply (str_err fs g items text H)]. Qed.

Theorem C39_load_file_is_meaning fs g path items text : readable fs path text -> r_doc items text ->
  (forall o, from_file fs g path = Some (OOk o) <->
     exists x, ev_doc (include_meaning fs (Some path)) limit64 items ([], file_sh fs g path) = Some (o, x)) /\
  ((exists e, from_file fs g path = Some (OErr e)) <->
     ev_doc (include_meaning fs (Some path)) limit64 items ([], file_sh fs g path) = None).
Proof. intros R H. split; [intros o; apply (file_ok fs g path items text R H)|apply (file_err fs g path items text R H)]. Qed.

(** ** C16 *)

(** Every chain of operators has exactly one reading as a tree without parentheses. *)
Theorem C16_one_reading (A : Type) (a : A) (l : list (binop * A)) :
  exists t, (paren_free t /\ flat t = (a, l)) /\ forall t', paren_free t' -> flat t' = (a, l) -> t' = t.
Proof.
  destruct (tree_exists l a) as (t & P & E). exists t. split; auto. intros t' P' E'.
  apply flat_inj; auto. congruence.
Qed.

(** The operands of an expression, from left to right. *)
Definition operand_values (inc : inc_ty -> str -> ES value) (e : expr) : ES (value * list (binop * value)) :=
  let 'Ex a l := e in
  do v <- ev_atom inc limit64 1 [] a;;
  do vs <- emap (fun x => match x with (op, b) => do w <- ev_atom inc limit64 1 [] b;; eret (op, w) end) l;;
  eret (v, vs).

(** [f: e] is the value of that tree on the values of the operands. *)
Theorem C16_precedence fs g f e t w o : legal_field f -> r_expr e t -> ws w ->
  (from_str fs g (f ++ lit ":" ++ w ++ t) = Some (OOk o) <->
   exists v vs x T r y,
     operand_values (include_meaning fs None) e ([], init_sh g) = Some ((v, vs), x) /\
     paren_free T /\ flat T = (v, vs) /\
     tree_value T x = Some (r, y) /\
     o = field_obj y f r).
Proof.
  intros Hf He W. change (f ++ lit ":" ++ w ++ t) with (f ++ c_colon :: w ++ t).
  rewrite one_ok by eauto. unfold expr_meaning, operand_values. destruct e as [a l]. rewrite ev_expr_Ex.
  set (m := emap _ l). unfold ebind.
  destruct (ev_atom _ _ _ _ a _) as [[v x1]|].
  2:{ split; [intros (? & ? & E & _); discriminate|intros (? & ? & ? & ? & ? & ? & E & _); discriminate]. }
  destruct (m x1) as [[vs x2]|].
  2:{ split; [intros (? & ? & E & _); discriminate|intros (? & ? & ? & ? & ? & ? & E & _); discriminate]. }
  assert (CT : forall T, paren_free T -> flat T = (v, vs) -> ev_chain None v vs x2 = tree_value T x2).
  { intros T P E. pose proof (chain_tree T P [] x2 I) as H. rewrite E, app_nil_r in H. cbn [fst snd] in H. rewrite H.
    unfold ebind. destruct (tree_value T x2) as [[]|]; reflexivity. }
  split.
  - intros (r & y & E & ->). destruct (tree_exists vs v) as (T & P & ET).
    exists v, vs, x2, T, r, y. split; [reflexivity|]. split; auto. split; auto. split; [|auto].
    rewrite <- E. symmetry. apply CT; auto.
  - intros (v' & vs' & x & T & r & y & E & P & ET & TV & ->). unfold eret in E. inversion E; subst.
    exists r, y. split; auto. rewrite <- TV. apply CT; auto.
Qed.

(** Unary operators bind tightest: in a chain they belong to their atom, and they nest. *)
Theorem C16_unary inc lim d fields op a x :
  ev_atom inc lim d fields (AUn op a) x =
  match ev_atom inc lim (d + 1) fields a x with
  | Some (VInt z, y) => Some (VInt (match op with UPlus => z | UMinus => (- z)%Z end), y)
  | Some (VFrac q, y) => Some (VFrac (match op with UPlus => q | UMinus => (- q)%Q end), y)
  | _ => None
  end.
Proof.
  rewrite ev_un. unfold ebind. destruct (ev_atom inc lim (d + 1) fields a x) as [[v y]|]; auto.
  destruct v, op; reflexivity.
Qed.

(** ** C17 *)
Ltac someinj E := match type of E with Some ?x = Some ?y =>
  let H := fresh in assert (H : x = y) by congruence; clear E; subst y end.
Lemma op_value_arith op v w r : number v <> None -> number w <> None ->
  (op_value op v w = Some r <-> arith op v w r).
Proof.
  intros Hv Hw. split.
  - intros E. destruct v as [| |a|a| | | |]; try (exfalso; apply Hv; reflexivity);
      destruct w as [| |b|b| | | |]; try (exfalso; apply Hw; reflexivity); destruct op; cbn [op_value as_frac] in E;
      try discriminate;
      try (someinj E; first
        [ apply ar_add | apply ar_sub | apply ar_mul
        | eapply ar_addq; [reflexivity|reflexivity|reflexivity|apply lowest_red|apply Qred_correct]
        | eapply ar_subq; [reflexivity|reflexivity|reflexivity|apply lowest_red|apply Qred_correct]
        | eapply ar_mulq; [reflexivity|reflexivity|reflexivity|apply lowest_red|apply Qred_correct]]).
    + destruct (Z.eqb_spec b 0); [discriminate|]. someinj E.
      assert (NZ : ~ inject_Z b == 0) by (unfold inject_Z, Qeq; cbn; lia).
      eapply ar_div; [reflexivity|reflexivity|exact NZ|apply lowest_red|].
      rewrite Qred_correct. rewrite Qmult_comm. apply Qmult_div_r. exact NZ.
    + destruct (Z.eqb_spec b 0); [discriminate|]. someinj E.
      destruct (proj2 (rem_spec a b (Z.rem a b) n) eq_refl) as (k & K1 & K2 & K3). eapply ar_mod; eauto.
    + destruct (Qeq_bool b 0) eqn:Z; [discriminate|]. someinj E. apply Qeq_bool_neq in Z.
      eapply ar_div; [reflexivity|reflexivity|exact Z|apply lowest_red|].
      rewrite Qred_correct. rewrite Qmult_comm. apply Qmult_div_r. exact Z.
    + destruct (Qeq_bool (b # 1) 0) eqn:Z; [discriminate|]. someinj E. apply Qeq_bool_neq in Z.
      eapply ar_div; [reflexivity|reflexivity|exact Z|apply lowest_red|].
      rewrite Qred_correct. rewrite Qmult_comm. apply Qmult_div_r. exact Z.
    + destruct (Qeq_bool b 0) eqn:Z; [discriminate|]. someinj E. apply Qeq_bool_neq in Z.
      eapply ar_div; [reflexivity|reflexivity|exact Z|apply lowest_red|].
      rewrite Qred_correct. rewrite Qmult_comm. apply Qmult_div_r. exact Z.
  - intros A. destruct A as [a b|a b|a b|a b k r Hb E L S|v w a b q E1 E2 Nz L E|v w a b q I E1 E2 L E|v w a b q I E1 E2 L E|v w a b q I E1 E2 L E].
    + reflexivity.
    + reflexivity.
    + reflexivity.
    + cbn. destruct (Z.eqb_spec b 0); [contradiction|]. do 2 f_equal. symmetry. apply rem_spec; eauto.
    + assert (E' : q == a / b). { rewrite <- E. symmetry. apply Qdiv_mult_l. exact Nz. }
      apply (red_iff _ _ L) in E'. subst q.
      destruct v as [| |x|x| | | |]; try discriminate; destruct w as [| |y|y| | | |]; try discriminate;
        cbn in E1, E2; injection E1 as <-; injection E2 as <-; cbn.
      * destruct (Z.eqb_spec y 0) as [->|]; [exfalso; apply Nz; reflexivity|reflexivity].
      * destruct (Qeq_bool y 0) eqn:Z; [apply Qeq_bool_iff in Z; contradiction|reflexivity].
      * destruct (Qeq_bool (y # 1) 0) eqn:Z; [apply Qeq_bool_iff in Z; contradiction|reflexivity].
      * destruct (Qeq_bool y 0) eqn:Z; [apply Qeq_bool_iff in Z; contradiction|reflexivity].
    + apply (red_iff _ _ L) in E. subst q.
      destruct v as [| |x|x| | | |]; try discriminate; destruct w as [| |y|y| | | |]; try discriminate;
        cbn in E1, E2; injection E1 as <-; injection E2 as <-; reflexivity.
    + apply (red_iff _ _ L) in E. subst q.
      destruct v as [| |x|x| | | |]; try discriminate; destruct w as [| |y|y| | | |]; try discriminate;
        cbn in E1, E2; injection E1 as <-; injection E2 as <-; reflexivity.
    + apply (red_iff _ _ L) in E. subst q.
      destruct v as [| |x|x| | | |]; try discriminate; destruct w as [| |y|y| | | |]; try discriminate;
        cbn in E1, E2; injection E1 as <-; injection E2 as <-; reflexivity.
Qed.

Ltac opstep := unfold binary_op_on_values, op_value;
  cbn [get_type ty_eqb ty_is andb as_frac unwrap_o get_int get_frac get_str unwrap ratio_new];
  unfold bind; cbn [ret fail unwrap_o get_int get_frac get_str unwrap]; unfold ret, fail.
Definition bad_divisor (op : binop) (v w : value) : bool :=
  match op with
  | BDiv => match number w with Some b => Qeq_bool b 0 | None => false end
  | BMod => match v, w with VInt _, VInt b => Z.eqb b 0 | _, _ => false end
  | _ => false
  end.
Lemma binop_num v w op line col s : number v <> None -> number w <> None ->
  binary_op_on_values v w op line col s =
  match op_value op v w with
  | Some r => (Ok r, s)
  | None => (Err (mkperr (s_file s) (if bad_divisor op v w then InvalidNumeric line col
                                     else BinaryOperatorError TFrac TFrac op line col)), s)
  end.
Proof.
  intros Hv Hw.
  destruct v as [| |a|a| | | |]; try (exfalso; apply Hv; reflexivity);
      destruct w as [| |b|b| | | |]; try (exfalso; apply Hw; reflexivity); destruct op;
      opstep; unfold q_add, q_sub, q_mul, q_div; cbn [bad_divisor number]; try reflexivity.
  - replace (Qeq_bool (inject_Z b) 0) with (Z.eqb b 0).
    2:{ apply eq_true_iff_eq. rewrite Z.eqb_eq, Qeq_bool_iff. unfold Qeq, inject_Z. cbn. lia. }
    destruct (Z.eqb_spec b 0); [reflexivity|]. rewrite int_div by auto. reflexivity.
  - destruct (b =? 0)%Z; reflexivity.
  - rewrite (Qred_z_l a b Qplus) by typeclasses eauto. reflexivity.
  - rewrite (Qred_z_l a b Qminus) by typeclasses eauto. reflexivity.
  - rewrite (Qred_z_l a b Qmult) by typeclasses eauto. reflexivity.
  - rewrite q_is_zero_iff. destruct (Qeq_bool b 0); [reflexivity|].
    rewrite (Qred_z_l a b Qdiv) by typeclasses eauto. reflexivity.
  - rewrite (Qred_z_r b a Qplus) by typeclasses eauto. reflexivity.
  - rewrite (Qred_z_r b a Qminus) by typeclasses eauto. reflexivity.
  - rewrite (Qred_z_r b a Qmult) by typeclasses eauto. reflexivity.
  - rewrite q_is_zero_z. change (inject_Z b) with (b # 1). destruct (Qeq_bool (b # 1) 0); [reflexivity|].
    rewrite (Qred_z_r b a Qdiv) by typeclasses eauto. reflexivity.
  - rewrite q_is_zero_iff. destruct (Qeq_bool b 0); reflexivity.
Qed.

(** On numbers, the operator gives exactly the result of [arith] ... *)
Theorem C17_exact v w op line col s r s' : number v <> None -> number w <> None ->
  (binary_op_on_values v w op line col s = (Ok r, s') <-> arith op v w r /\ s' = s).
Proof.
  intros Hv Hw. rewrite binop_num by auto. rewrite <- (op_value_arith op v w r Hv Hw).
  destruct (op_value op v w) as [r0|]; split.
  - intros E. inversion E; auto.
  - intros [E ->]. congruence.
  - discriminate.
  - intros [E _]. discriminate.
Qed.
(** ... which exists except for a zero divisor and for % on a Frac; these are errors. *)
Theorem C17_number_errors v w op line col s : number v <> None -> number w <> None ->
  (forall r, ~ arith op v w r) ->
  ((op = BDiv /\ (forall b, number w = Some b -> b == 0) \/ (op = BMod /\ w = VInt 0)) /\
     binary_op_on_values v w op line col s = (Err (mkperr (s_file s) (InvalidNumeric line col)), s)) \/
  (op = BMod /\ is_int v && is_int w = false /\
     binary_op_on_values v w op line col s = (Err (mkperr (s_file s) (BinaryOperatorError TFrac TFrac BMod line col)), s)).
Proof.
  intros Hv Hw N. rewrite binop_num by auto.
  destruct (op_value op v w) as [r|] eqn:E; [exfalso; eapply N; apply op_value_arith; eauto|].
  destruct v as [| |a|a| | | |]; try (exfalso; apply Hv; reflexivity);
    destruct w as [| |b|b| | | |]; try (exfalso; apply Hw; reflexivity); destruct op;
    cbn in E; try discriminate; try (right; cbn; repeat split; reflexivity).
  - destruct (Z.eqb_spec b 0) as [->|]; [|discriminate]. left. cbn. split; [|reflexivity].
    left. split; auto. intros b E'. inversion E'. reflexivity.
  - destruct (Z.eqb_spec b 0) as [->|]; [|discriminate]. left. cbn. split; auto.
  - destruct (Qeq_bool b 0) eqn:Z; [|discriminate]. left. cbn. rewrite Z. split; [|reflexivity].
    left. split; auto. intros b' E'. inversion E'; subst. apply Qeq_bool_iff; auto.
  - destruct (Qeq_bool (b # 1) 0) eqn:Z; [|discriminate]. left. cbn. change (inject_Z b) with (b # 1). rewrite Z. split; [|reflexivity].
    left. split; auto. intros b' E'. inversion E'; subst. apply Qeq_bool_iff; auto.
  - destruct (Qeq_bool b 0) eqn:Z; [|discriminate]. left. cbn. rewrite Z. split; [|reflexivity].
    left. split; auto. intros b' E'. inversion E'; subst. apply Qeq_bool_iff; auto.
Qed.
(** Any other combination except Str + Str and Arr + Arr is an operator error. *)
Theorem C17_other_types v w op line col s : number v = None \/ number w = None ->
  ~ (op = BPlus /\ exists a b, v = VStr a /\ w = VStr b) ->
  ~ (op = BPlus /\ exists a b, v = VArr a /\ w = VArr b) ->
  binary_op_on_values v w op line col s =
  (Err (mkperr (s_file s) (BinaryOperatorError (get_type v) (get_type w) op line col)), s).
Proof.
  intros H S A. destruct v, w; try (destruct H; discriminate); destruct op; try reflexivity;
    try (exfalso; apply S; split; eauto; fail); try (exfalso; apply A; split; eauto; fail).
Qed.
(** In documents: [ev_op], used by C16, is [arith] on numbers. *)
Theorem C17_in_documents op v w x r y : number v <> None -> number w <> None ->
  (ev_op op v w x = Some (r, y) <-> arith op v w r /\ y = x).
Proof.
  intros Hv Hw. rewrite <- (op_value_arith op v w r Hv Hw).
  assert (E : ev_op op v w = elift (op_value op v w)).
  { destruct v; try (exfalso; apply Hv; reflexivity); destruct op; reflexivity. }
  rewrite E. unfold elift, eret, efail. destruct (op_value op v w); split; try discriminate.
  - intros K. inversion K; auto.
  - intros [K ->]. congruence.
  - intros [K _]. discriminate.
Qed.
Example C17_ex : arith BDiv (VInt 1) (VFrac (Qmake 2 3)) (VFrac (Qmake 3 2)) /\
  arith BMod (VInt (-7)) (VInt 3) (VInt (-1)) /\ (forall r, ~ arith BMod (VInt 1) (VInt 0) r).
Proof.
  split; [econstructor; reflexivity || (intros H; discriminate H)|]. split; [apply (ar_mod (-7) 3 (-2)); lia|].
  intros r H. inversion H. congruence.
Qed.
End P.
