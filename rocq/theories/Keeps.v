(** * Keeps: a parsing function that succeeds leaves the stream at a position of the text. *)
From Verif Require Export AgreeTop.
From Coq Require String.
Import String.StringSyntax.
Open Scope N_scope.

(** ** A parsing function that succeeds leaves the stream at a position of the text. *)
Definition keeps {A} (T : str) (m : M A) : Prop :=
  forall s, in_text T s -> match m s with (Ok _, s') => in_text T s' | _ => True end.
Section Keeps.
Context `{U : Unicode}.
Variable T : str.
Lemma keeps_ret {A} (a : A) : keeps T (ret a).
Proof. intros s H. exact H. Qed.
Lemma keeps_bind {A B} (m : M A) (f : A -> M B) : keeps T m -> (forall a, keeps T (f a)) -> keeps T (bind m f).
Proof.
  intros Hm Hf s H. specialize (Hm s H). unfold bind. destruct (m s) as [[a|e| |] s']; auto. apply Hf; auto.
Qed.
(** same stream *)
Lemma keeps_same {A} (m : M A) :
  (forall s, match m s with (Ok _, s') => s_rest s' = s_rest s /\ s_line s' = s_line s /\ s_col s' = s_col s | _ => True end) ->
  keeps T m.
Proof.
  intros K s (pre & E & P). specialize (K s). destruct (m s) as [[a|e| |] s']; auto. destruct K as (K1 & K2 & K3).
  exists pre. rewrite K1, K2, K3. auto.
Qed.
Lemma keeps_next : keeps T next.
Proof.
  intros s H. unfold next. destruct (s_rest s) as [|c r] eqn:R; [exact H|].
  pose proof (in_text_moved_by T _ _ _ H (moved_by_adv1 s c r R)) as K. unfold adv1 in K.
  destruct (adv c (s_line s) (s_col s)). exact K.
Qed.
Lemma keeps_scan {A} (f : str -> N -> N -> A * (str * N * N)) :
  (forall r l k x q, f r l k = (x, q) -> exists con, scanned r l k con q) ->
  keeps T (fun s => let '(x, (r, l, k)) := f (s_rest s) (s_line s) (s_col s) in (Ok x, set_stream s r l k)).
Proof.
  intros F s H. destruct (f _ _ _) as [x [[r l] k]] eqn:E. apply F in E as (con & E).
  eapply in_text_moved_by; [exact H|]. apply scanned_moved. exact E.
Qed.

Lemma keeps_err {A} (m : M A) : (forall s, match m s with (Ok _, _) => False | _ => True end) -> keeps T m.
Proof. intros H s _. specialize (H s). destruct (m s) as [[a|e| |] s']; auto. destruct H. Qed.
Ltac same := apply keeps_same; let s := fresh "s" in intros s; cbn; auto.
Lemma keeps_find : keeps T find_char.
Proof.
  apply (keeps_scan (fun r l k => find_char_l r l k false)). intros r l k x q E. apply find_char_l_spec in E as (con & E & _). eauto.
Qed.
Lemma keeps_gen : keeps T gen_id.
Proof. same. Qed.
Lemma keeps_sentinel k : keeps T (sentinel k).
Proof. apply keeps_same. intros s. unfold sentinel. destruct (g_sent _ _); cbn; auto. Qed.
Lemma keeps_include li ty p : keeps T (run_include li ty p).
Proof. apply keeps_same. intros s. unfold run_include. destruct (li _ _ _) as [[a|e| |] sh]; cbn; auto. Qed.

Ltac k1 :=
  match goal with
  | |- keeps _ (bind _ _) => apply keeps_bind; [|intros]
  | |- keeps _ (if ?b then _ else _) => destruct b
  | |- keeps _ (match ?x with _ => _ end) => destruct x
  | |- keeps _ (let _ := _ in _) => cbv zeta
  | |- keeps _ (ret _) => apply keeps_ret
  | |- keeps _ (fail _) => apply keeps_err; intros ?; exact I
  | |- keeps _ (raise _) => apply keeps_err; intros ?; exact I
  | |- keeps _ panic => apply keeps_err; intros ?; exact I
  | |- keeps _ nofuel => apply keeps_err; intros ?; exact I
  | |- keeps _ next => apply keeps_next
  | |- keeps _ find_char => apply keeps_find
  | |- keeps _ gen_id => apply keeps_gen
  | |- keeps _ (sentinel _) => apply keeps_sentinel
  | |- keeps _ (run_include _ _ _) => apply keeps_include
  | |- keeps _ peek => same
  | |- keeps _ getline => same
  | |- keeps _ getpos => same
  | |- keeps _ getfile => same
  | |- keeps _ get_globals => same
  | |- keeps _ (insert_global _ _) => same
  | |- keeps _ get_sh => same
  | |- keeps _ (put_sh _) => same
  | |- keeps _ col_minus_1 => apply keeps_same; let s := fresh "s" in intros s; unfold col_minus_1; destruct (s_col s =? 0); cbn; auto
  | |- keeps _ (unwrap _) => unfold unwrap
  | |- keeps _ (unwrap_o _) => unfold unwrap_o
  | |- keeps _ (assert_ _) => unfold assert_
  | |- keeps _ peek_unwrap => unfold peek_unwrap
  | |- keeps _ next_unwrap => unfold next_unwrap
  | |- keeps _ (new_obj _ _) => unfold new_obj
  | |- keeps _ (new_arr _ _) => unfold new_arr
  | |- keeps _ (new_tup _) => unfold new_tup
  | |- keeps _ (check_value_end _) => unfold check_value_end
  | |- keeps _ (unary_op_on_value _ _ _ _) => unfold unary_op_on_value
  | |- keeps _ (binary_op_on_values _ _ _ _ _) => unfold binary_op_on_values
  | |- keeps _ (include_token _ _ _) => unfold include_token
  | |- keeps _ (lookup_variable _ _ _ _ _) => unfold lookup_variable
  | |- keeps _ (index_by _ _ _ _) => unfold index_by
  | |- keeps _ (parse_bigint _) => unfold parse_bigint
  end.
Ltac ks := repeat k1.
Lemma keeps_str : keeps T parse_str.
Proof.
  unfold parse_str. ks. apply (keeps_scan (fun r l k => scan_str r l k [] false)). intros r l k x q E.
  apply scan_str_spec in E as (con & E & _). eauto.
Qed.
Lemma keeps_numeric l k : keeps T (parse_numeric l k).
Proof.
  unfold parse_numeric. ks. apply (keeps_scan (fun r l k => scan_numeric r l k [] [] false false)). intros r l' k' x q E.
  apply scan_numeric_spec in E as (con & E & _); auto. eauto.
Qed.
Lemma keeps_field l k : keeps T (parse_field l k).
Proof.
  unfold parse_field. ks.
  apply (keeps_scan (fun r l k => scan_field r l k a0 true)). intros r l' k' x q E.
  apply scan_field_spec in E as (con & E & _). eauto.
Qed.
Lemma keeps_binop v w op l k : keeps T (binary_op_on_values v w op l k).
Proof. ks. Qed.
Lemma keeps_token v l k : keeps T (include_token v l k).
Proof. ks. Qed.
Lemma keeps_lookup ps v g l k : keeps T (lookup_variable ps v g l k).
Proof. ks. Qed.
Lemma keeps_unary v op l k : keeps T (unary_op_on_value v op l k).
Proof. ks. Qed.
Lemma keeps_low ops : forall v vals, keeps T (eval_low_ops v vals ops).
Proof.
  induction ops as [|op ops IH]; intros v vals; [destruct vals; apply keeps_ret|]. destruct vals as [|[[v2 l2] k2] vals]; [apply keeps_err; intros ?; exact I|].
  apply keeps_bind; [apply keeps_binop|]. intros a. apply IH.
Qed.
Section Files.
Variable fs : fsys.
Variable li : inc_ty -> str -> shared -> outcome value * shared.
Lemma keeps_finish ty f l k : keeps T (finish_include fs li ty f l k).
Proof. unfold finish_include. ks. Qed.
Definition KT (n : nat) : Prop :=
  (forall a b c d e f, keeps T (parse_value fs li n a b c d e f)) /\
  (forall a b c d e, keeps T (parse_ops fs li n a b c d e)) /\
  (forall a b c d, keeps T (parse_unary_op fs li n a b c d)) /\
  (forall a, keeps T (parse_obj fs li n a)) /\
  (forall a b c d, keeps T (pairs_loop fs li n a b c d)) /\
  (forall a b c d, keeps T (parse_field_value_pair fs li n a b c d)) /\
  (forall a b, keeps T (parse_arr fs li n a b)) /\
  (forall a b c d e, keeps T (arr_loop fs li n a b c d e)) /\
  (forall a b, keeps T (parse_tup fs li n a b)) /\
  (forall a b c, keeps T (tup_loop fs li n a b c)) /\
  (forall a b c d e, keeps T (parse_variable fs li n a b c d e)) /\
  (forall a b, keeps T (parse_include fs li n a b)).
Lemma KT_all n : KT n.
Proof.
  induction n as [|n (H1&H2&H3&H4&H5&H6&H7&H8&H9&H10&H11&H12)].
  - unfold KT. repeat split; intros; apply keeps_err; intros ?; exact I.
  -
    Ltac use12 H1 H2 H3 H4 H5 H6 H7 H8 H9 H10 H11 H12 :=
      repeat (first [k1|apply H1|apply H2|apply H3|apply H4|apply H5|apply H6|apply H7|apply H8|apply H9|apply H10|apply H11|apply H12
        |apply keeps_str|apply keeps_numeric|apply keeps_field|apply keeps_binop|apply keeps_low|apply keeps_finish]).
    unfold KT.
    split; [intros; rewrite !parse_value_S; use12 H1 H2 H3 H4 H5 H6 H7 H8 H9 H10 H11 H12|].
    split; [intros; rewrite !parse_ops_S; use12 H1 H2 H3 H4 H5 H6 H7 H8 H9 H10 H11 H12|].
    split; [intros; rewrite !parse_unary_op_S; use12 H1 H2 H3 H4 H5 H6 H7 H8 H9 H10 H11 H12|].
    split; [intros; rewrite !parse_obj_S; use12 H1 H2 H3 H4 H5 H6 H7 H8 H9 H10 H11 H12|].
    split; [intros; rewrite !pairs_loop_S; use12 H1 H2 H3 H4 H5 H6 H7 H8 H9 H10 H11 H12|].
    split; [intros; rewrite !parse_field_value_pair_S; use12 H1 H2 H3 H4 H5 H6 H7 H8 H9 H10 H11 H12|].
    split; [intros; rewrite !parse_arr_S; use12 H1 H2 H3 H4 H5 H6 H7 H8 H9 H10 H11 H12|].
    split; [intros; rewrite !arr_loop_S; use12 H1 H2 H3 H4 H5 H6 H7 H8 H9 H10 H11 H12|].
    split; [intros; rewrite !parse_tup_S; use12 H1 H2 H3 H4 H5 H6 H7 H8 H9 H10 H11 H12|].
    split; [intros; rewrite !tup_loop_S; use12 H1 H2 H3 H4 H5 H6 H7 H8 H9 H10 H11 H12|].
    split; [intros; rewrite !parse_variable_S; cbv zeta; use12 H1 H2 H3 H4 H5 H6 H7 H8 H9 H10 H11 H12|].
    { apply (keeps_scan (fun r l k => scan_var r l k a1)). intros r l k x q E. apply scan_var_spec in E as (con & E & _). eauto. }
    intros; rewrite !parse_include_S; use12 H1 H2 H3 H4 H5 H6 H7 H8 H9 H10 H11 H12.
Qed.
Lemma keeps_disp n ps l k d close c : keeps T (disp fs li n ps l k d close c).
Proof.
  destruct (KT_all n) as (H1&H2&H3&H4&H5&H6&H7&H8&H9&H10&H11&H12). unfold disp.
  repeat (first [k1|apply H1|apply H3|apply H4|apply H7|apply H9|apply H11|apply H12|apply keeps_str|apply keeps_numeric]).
Qed.
End Files.
End Keeps.
