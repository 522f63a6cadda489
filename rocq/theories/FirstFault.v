(** * FirstFault: a load that fails before the end of the text does not depend on what follows. *)
From Verif Require Export Fuel Syntax.
From Coq Require String.
Import String.StringSyntax.
Open Scope N_scope.

(** A text of whole lines. *)
Definition whole_lines (t : str) : Prop := exists u, t = u ++ [c_nl].

Section E.
Context `{U : Unicode}.
Variable more : str.
Definition ex (s : pstate) : pstate := mkst (s_file s) (s_rest s ++ more) (s_line s) (s_col s) (s_globals s) (s_sh s).
Definition ne (s : pstate) : Prop := whole_lines (s_rest s).
(** the end of the text of [file] was reached too early *)
Definition too_short (file : option str) (e : perr) : Prop := exists l, e = mkperr file (UnexpectedEnd l).
Definition E {A} (m : M A) (s : pstate) : Prop :=
  match m s with
  | (Ok a, s1) => ne s1 /\ s_file s1 = s_file s /\ m (ex s) = (Ok a, ex s1)
  | (Err e, s1) => too_short (s_file s) e \/ exists s1', m (ex s) = (Err e, s1') /\ s_sh s1' = s_sh s1
  | _ => True
  end.
Definition T {A} (m : M A) : Prop := forall s, ne s -> E m s.
Lemma E_bind {A B} (m : M A) (f : A -> M B) s : E m s -> (forall a s1, m s = (Ok a, s1) -> ne s1 -> E (f a) s1) -> E (bind m f) s.
Proof.
  unfold E, bind. intros H K. destruct (m s) as [[a|e| |] s1]; auto.
  - destruct H as (N & F & H). specialize (K a s1 eq_refl N). rewrite H. destruct (f a s1) as [[b|e| |] s2]; auto.
    + destruct K as (N2 & F2 & K). rewrite F2. auto.
    + rewrite <- F. exact K.
  - destruct H as [H|(s1' & H & Q)]; [auto|]. right. exists s1'. rewrite H. auto.
Qed.
Lemma T_bind {A B} (m : M A) (f : A -> M B) : T m -> (forall a, T (f a)) -> T (bind m f).
Proof. intros H K s N. apply E_bind; [apply H, N|]. intros a s1 _ N1. apply K, N1. Qed.
Lemma T_ret {A} (a : A) : T (ret a). Proof. intros s N. unfold E, ret. auto. Qed.
Lemma E_fail {A} k s : E (@fail A k) s. Proof. unfold E, fail. right. exists (ex s). auto. Qed.
Lemma T_fail {A} k : T (@fail A k). Proof. intros s _. apply E_fail. Qed.
Lemma T_raise {A} e : T (@raise A e). Proof. intros s N. unfold E, raise. right. exists (ex s). auto. Qed.
Lemma T_panic {A} : T (@panic A). Proof. intros s N. exact I. Qed.
Lemma T_nofuel {A} : T (@nofuel A). Proof. intros s N. exact I. Qed.
Lemma T_line : T getline. Proof. intros s N. unfold E. cbn. auto. Qed.
Lemma T_pos : T getpos. Proof. intros s N. unfold E. cbn. auto. Qed.
Lemma T_file : T getfile. Proof. intros s N. unfold E. cbn. auto. Qed.
Lemma T_glob : T get_globals. Proof. intros s N. unfold E. cbn. auto. Qed.
Lemma T_insert f v : T (insert_global f v). Proof. intros s N. unfold E. cbn. auto. Qed.
Lemma T_get : T get_sh. Proof. intros s N. unfold E. cbn. auto. Qed.
Lemma T_put h : T (put_sh h). Proof. intros s N. unfold E. cbn. auto. Qed.
Lemma T_gen : T gen_id. Proof. intros s N. unfold E. cbn. auto. Qed.
Lemma T_sent k : T (sentinel k).
Proof. intros s N. unfold E, sentinel. cbn. destruct (g_sent _ _); auto. Qed.
Lemma T_col : T col_minus_1. Proof. intros s N. unfold E, col_minus_1. cbn. destruct (s_col s =? 0); auto. Qed.
Lemma ne_head s : ne s -> exists c r, s_rest s = c :: r.
Proof. intros [u E]. rewrite E. destruct u as [|c u]; [exists c_nl, []; reflexivity|exists c, (u ++ [c_nl]); reflexivity]. Qed.
Lemma T_peek : T peek.
Proof. intros s N. destruct (ne_head s N) as (c & r & H). unfold E, peek. cbn. rewrite H. cbn. auto. Qed.
Lemma tail_lines c r : whole_lines (c :: r) -> c <> c_nl -> whole_lines r.
Proof. intros [u E] H. destruct u as [|d u]; [injection E as -> ->; congruence|]. injection E as -> ->. exists u. reflexivity. Qed.
(** programs that look at the next character *)
Lemma E_peek {B} (f : option char -> M B) s : (forall c, (exists r, s_rest s = c :: r) -> E (f (Some c)) s) -> ne s -> E (bind peek f) s.
Proof.
  intros H N. destruct (ne_head s N) as (c & r & Q). specialize (H c (ex_intro _ r Q)). unfold E, bind, peek in *. cbn. rewrite Q. cbn. exact H.
Qed.
Lemma E_peek_unwrap {B} (f : char -> M B) s : (forall c, (exists r, s_rest s = c :: r) -> E (f c) s) -> ne s -> E (bind peek_unwrap f) s.
Proof.
  intros H N. destruct (ne_head s N) as (c & r & Q). specialize (H c (ex_intro _ r Q)). unfold E, bind, peek_unwrap, unwrap, peek, ret in *. cbn. rewrite Q. cbn. exact H.
Qed.
Lemma E_next {B} (f : option char -> M B) s c r : s_rest s = c :: r -> c <> c_nl -> ne s -> T (f (Some c)) -> E (bind next f) s.
Proof.
  intros Q H N K. unfold next. destruct s as [fi rs l k g h]. cbn [s_rest] in *. subst rs.
  assert (N1 : whole_lines r) by exact (tail_lines c r N H).
  pose proof (K (set_stream (mkst fi (c :: r) l k g h) r (fst (adv c l k)) (snd (adv c l k))) N1) as X. unfold E, bind, ex in *. cbn in *.
  destruct (adv c l k). cbn in *. exact X.
Qed.
Lemma E_next_unwrap {B} (f : char -> M B) s c r : s_rest s = c :: r -> c <> c_nl -> ne s -> T (f c) -> E (bind next_unwrap f) s.
Proof.
  intros Q H N K. pose proof (E_next (fun o => bind (unwrap o) f) s c r Q H N) as X. unfold E in *. cbn [unwrap] in X.
  assert (Z : forall s, bind next_unwrap f s = bind next (fun o => bind (unwrap o) f) s).
  { intros s0. unfold bind, next_unwrap, bind. destruct (next s0) as [[]]; reflexivity. }
  rewrite !Z. apply X. exact K.
Qed.
(** an opening bracket *)
Lemma T_open {B} x (f : char -> M B) : x <> c_nl -> T (f x) -> T (bind next_unwrap (fun c => bind (assert_ (c =? x)) (fun _ => f c))).
Proof.
  intros H K s N. destruct (ne_head s N) as (c & r & Q). destruct (N.eqb_spec c x) as [->|D].
  - apply (E_next_unwrap _ s x r Q H N). rewrite N.eqb_refl. exact K.
  - unfold E, bind, next_unwrap, bind, next. rewrite Q. destruct (adv c _ _). cbn. apply N.eqb_neq in D. rewrite D. exact I.
Qed.
(** ** Scans *)
Definition scan_ok {A} (f : str -> N -> N -> A * (str * N * N)) : Prop := forall r l k, whole_lines r ->
  let '(x, (r', l', k')) := f r l k in whole_lines r' /\ f (r ++ more) l k = (x, (r' ++ more, l', k')).
Lemma T_scan {A} (f : str -> N -> N -> A * (str * N * N)) : scan_ok f ->
  T (fun s => let '(x, (r, l, k)) := f (s_rest s) (s_line s) (s_col s) in (Ok x, set_stream s r l k)).
Proof.
  intros H s N. unfold E. specialize (H (s_rest s) (s_line s) (s_col s) N). cbn.
  destruct (f (s_rest s) (s_line s) (s_col s)) as [x [[r l] k]]. destruct H as [H1 H2]. rewrite H2. auto.
Qed.
Lemma nl_end : is_value_end_char c_nl = true. Proof. reflexivity. Qed.
Lemma lines_cons c r : whole_lines (c :: r) -> c = c_nl \/ whole_lines r.
Proof. intros H. destruct (N.eq_dec c c_nl); [auto|right; exact (tail_lines c r H n)]. Qed.
Lemma lines_or c r : whole_lines (c :: r) -> r = [] \/ whole_lines r.
Proof. intros [[|d u] Q]; inversion Q; [auto|]. right. exists u. reflexivity. Qed.
Lemma lines_nil : ~ whole_lines []. Proof. intros [[|]]; discriminate. Qed.
Ltac scan_end := match goal with H : whole_lines [] |- _ => destruct (lines_nil H) end.
Lemma numeric_ok s1 s2 d u : scan_ok (fun r l k => scan_numeric r l k s1 s2 d u).
Proof.
  intros r. revert s1 s2 d u. induction r as [|c r IH]; intros s1 s2 d u l k H; [scan_end|]. cbn [scan_numeric app].
  destruct (adv c l k) as [l' k']. destruct (is_value_end_char c) eqn:V; [auto|].
  assert (D : whole_lines r) by (apply (tail_lines c r H); intros ->; discriminate V).
  repeat match goal with |- context [if ?b then _ else _] => destruct b end; auto; apply IH, D.
Qed.
Lemma var_ok a : scan_ok (fun r l k => scan_var r l k a).
Proof.
  intros r. revert a. induction r as [|c r IH]; intros a l k H; [scan_end|]. cbn [scan_var app]. destruct (adv c l k) as [l' k'].
  destruct (c =? c_dot) eqn:D; [apply N.eqb_eq in D as ->; split; [apply (tail_lines _ _ H); discriminate|reflexivity]|].
  destruct (is_value_end_char c) eqn:V; [auto|]. destruct (is_valid_field_char c false); [|auto].
  apply IH, (tail_lines c r H). intros ->. discriminate V.
Qed.
Lemma nl_field b : is_valid_field_char c_nl b = false.
Proof. destruct b; reflexivity. Qed.
Lemma field_ok : forall r a b l k, whole_lines r ->
  let '(x, (r', l', k')) := scan_field r l k a b in
  ((whole_lines r' /\ scan_field (r ++ more) l k a b = (x, (r' ++ more, l', k'))) \/
   (exists c, x = FS_bad c /\ scan_field (r ++ more) l k a b = (x, (r' ++ more, l', k')))).
Proof.
  induction r as [|c r IH]; intros a b l k H; [scan_end|]. cbn [scan_field app]. destruct (adv c l k) as [l' k'].
  destruct ((c =? c_colon) && negb b)%bool eqn:D.
  - left. split; [|reflexivity]. apply (tail_lines c r H). intros ->. discriminate D.
  - destruct (is_valid_field_char c b) eqn:V.
    + apply IH, (tail_lines c r H). intros ->. rewrite nl_field in V. discriminate V.
    + right. eauto.
Qed.
Lemma str_ok : forall r a b l k, (r = [] \/ whole_lines r) ->
  let '(x, (r', l', k')) := scan_str r l k a b in
  x = SS_end \/ (scan_str (r ++ more) l k a b = (x, (r' ++ more, l', k')) /\ (whole_lines r' \/ exists c, x = SS_bad_escape c)).
Proof.
  induction r as [|c r IH]; intros a b l k H; [cbn; auto|]. cbn [scan_str app]. destruct (adv c l k) as [l' k'].
  destruct H as [H|H]; [discriminate|].
  pose proof (lines_or c r H) as H'.
  destruct b.
  - destruct (get_escape_char c); [apply IH, H'|]. right. eauto.
  - destruct (c =? c_quote) eqn:D.
    + right. split; [reflexivity|]. left. apply (tail_lines c r H). intros ->. discriminate D.
    + destruct (c =? c_bslash); apply IH, H'.
Qed.
Lemma find_ok : forall r b l k, (r = [] \/ whole_lines r) ->
  let '(x, (r', l', k')) := find_char_l r l k b in
  (x = false /\ r' = []) \/ (x = true /\ whole_lines r' /\ find_char_l (r ++ more) l k b = (true, (r' ++ more, l', k'))).
Proof.
  induction r as [|c r IH]; intros b l k H; [left; auto|]. cbn [find_char_l app]. destruct (adv c l k) as [l' k'].
  destruct H as [H|H]; [discriminate|].
  pose proof (lines_or c r H) as H'.
  destruct b; [apply IH, H'|]. destruct (c =? c_hash); [apply IH, H'|]. destruct (ch_is_whitespace c); [apply IH, H'|]. right. auto.
Qed.
(** looking for a character where the text must go on *)
Lemma T_find {B} (K : M B) : T K -> T (bind find_char (fun found => if negb found then bind getline (fun l => fail (UnexpectedEnd l)) else K)).
Proof.
  intros H s N. pose proof (find_ok (s_rest s) false (s_line s) (s_col s) (or_intror N)) as F.
  unfold E, bind, find_char. destruct (find_char_l (s_rest s) (s_line s) (s_col s) false) as [x [[r l] k]] eqn:Q.
  destruct F as [[-> ->]|(-> & W & F)]; cbn [negb].
  - left. exists l. reflexivity.
  - cbn [ex s_rest s_line s_col]. rewrite F. cbn [negb]. exact (H (set_stream s r l k) W).
Qed.
Ltac k1 :=
  match goal with
  | |- T (bind find_char _) => apply T_find
  | |- T (bind next_unwrap (fun c => bind (assert_ _) _)) => apply T_open; [discriminate|cbv beta]
  | |- T (bind next _) => fail 1
  | |- T (bind next_unwrap _) => fail 1
  | |- T (bind peek_unwrap _) => fail 1
  | |- T (bind _ _) => apply T_bind; [|intros; cbv beta]
  | |- T (if ?b then _ else _) => destruct b
  | |- T (match ?x with _ => _ end) => destruct x
  | |- T (let _ := _ in _) => cbv zeta
  | |- T (ret _) => apply T_ret
  | |- T (fail _) => apply T_fail
  | |- T (raise _) => apply T_raise
  | |- T panic => apply T_panic
  | |- T nofuel => apply T_nofuel
  | |- T gen_id => apply T_gen
  | |- T (sentinel _) => apply T_sent
  | |- T peek => apply T_peek
  | |- T getline => apply T_line
  | |- T getpos => apply T_pos
  | |- T getfile => apply T_file
  | |- T get_globals => apply T_glob
  | |- T (insert_global _ _) => apply T_insert
  | |- T get_sh => apply T_get
  | |- T (put_sh _) => apply T_put
  | |- T col_minus_1 => apply T_col
  | |- T (unwrap _) => unfold unwrap
  | |- T (unwrap_o _) => unfold unwrap_o
  | |- T (assert_ _) => unfold assert_
  | |- T (new_obj _ _) => unfold new_obj
  | |- T (new_arr _ _) => unfold new_arr
  | |- T (new_tup _) => unfold new_tup
  | |- T (check_value_end _) => unfold check_value_end
  | |- T (unary_op_on_value _ _ _ _) => unfold unary_op_on_value
  | |- T (binary_op_on_values _ _ _ _ _) => unfold binary_op_on_values
  | |- T (include_token _ _ _) => unfold include_token
  | |- T (lookup_variable _ _ _ _ _) => unfold lookup_variable
  | |- T (index_by _ _ _ _) => unfold index_by
  | |- T (parse_bigint _) => unfold parse_bigint
  end.
Ltac ks := repeat k1.
Lemma T_numeric l k : T (parse_numeric l k).
Proof. unfold parse_numeric. ks. apply (T_scan (fun r l k => scan_numeric r l k [] [] false false)), numeric_ok. Qed.
Lemma T_binop v w op l k : T (binary_op_on_values v w op l k). Proof. ks. Qed.
Lemma T_low ops : forall v vals, T (eval_low_ops v vals ops).
Proof.
  induction ops as [|op ops IH]; intros v vals; [destruct vals; apply T_ret|]. destruct vals as [|[[v2 l2] k2] vals]; [apply T_panic|].
  cbn [eval_low_ops]. apply T_bind; [apply T_binop|]. intros a. apply IH.
Qed.
Lemma T_str : T parse_str.
Proof.
  unfold parse_str. apply (T_open c_quote (fun _ => _)); [discriminate|]. intros s N.
  pose proof (str_ok (s_rest s) [] false (s_line s) (s_col s) (or_intror N)) as F.
  unfold E, bind. cbn [ex s_rest s_line s_col]. destruct (scan_str (s_rest s) (s_line s) (s_col s) [] false) as [x [[r l] k]].
  destruct F as [->|[F W]]; [left; exists l; reflexivity|]. rewrite F. destruct x as [t|c|].
  - destruct W as [W|[c W]]; [|discriminate]. cbn. auto.
  - cbn. unfold col_minus_1. cbn. destruct (k =? 0); cbn; auto. right. eexists. split; reflexivity.
  - left. exists l. reflexivity.
Qed.
Lemma T_field l k : T (parse_field l k).
Proof.
  intros s N. unfold parse_field. apply E_peek_unwrap; [|exact N]. intros c [r Q]. cbv zeta.
  assert (X : forall field, T (bind (fun s => let '(x, (r, l, k)) := scan_field (s_rest s) (s_line s) (s_col s) field true in (Ok x, set_stream s r l k))
    (fun r => match r with
      | FS_bad c => bind getline (fun l => bind col_minus_1 (fun k => fail (InvalidFieldChar c l k)))
      | FS_ok field => if is_reserved field then fail (InvalidFieldName field l k) else if str_eqb field (lit "^") then ret (field, FParent)
          else match field with 94 :: _ => fail (InvalidFieldName field l k) | _ => ret (field, if c =? c_at then FGlobal else FRegular) end
      end))).
  { clear s N Q. intros field s N. pose proof (field_ok (s_rest s) field true (s_line s) (s_col s) N) as F.
    destruct (scan_field (s_rest s) (s_line s) (s_col s) field true) as [x [[r' l'] k']] eqn:Sc.
    destruct F as [[W F]|(d & -> & F)].
    - apply E_bind.
      + unfold E. cbn [ex s_rest s_line s_col]. rewrite Sc, F. split; [exact W|]. split; reflexivity.
      + intros a s1 Ea N1. assert (Y : T match a with
          | FS_bad c => bind getline (fun l => bind col_minus_1 (fun k => fail (InvalidFieldChar c l k)))
          | FS_ok field => if is_reserved field then fail (InvalidFieldName field l k) else if str_eqb field (lit "^") then ret (field, FParent)
              else match field with 94 :: _ => fail (InvalidFieldName field l k) | _ => ret (field, if c =? c_at then FGlobal else FRegular) end end).
        { destruct a; ks. }
        exact (Y s1 N1).
    - unfold E, bind. cbn [ex s_rest s_line s_col]. rewrite Sc, F. cbn. unfold col_minus_1. cbn. destruct (k' =? 0); cbn; auto.
      right. eexists. split; reflexivity. }
  destruct (c =? c_at) eqn:A.
  - apply N.eqb_eq in A. subst c.
    assert (Z : forall f s, @bind _ (str * field_type) (let* c := next_unwrap in ret [c]) f s = bind next_unwrap (fun c => f [c]) s).
    { intros f s0. unfold bind, ret. destruct (next_unwrap s0) as [[]]; reflexivity. }
    unfold E. rewrite !Z. apply (E_next_unwrap _ s c_at r Q); [discriminate|exact N|]. apply X.
  - apply (X [] s N).
Qed.

Section Files.
Variable fs : fsys.
Variable li : inc_ty -> str -> shared -> outcome value * shared.
Lemma T_include ty p : T (run_include li ty p).
Proof.
  intros s N. unfold E, run_include. cbn [ex s_sh]. destruct (li ty p (s_sh s)) as [[v|e| |] h]; auto.
  right. eexists. split; reflexivity.
Qed.
Lemma T_finish ty f l k : T (finish_include fs li ty f l k).
Proof. unfold finish_include. ks; apply T_include. Qed.
Definition TT (n : nat) : Prop :=
  (forall a b c d e f, T (parse_value fs li n a b c d e f)) /\
  (forall a b c d e, T (parse_ops fs li n a b c d e)) /\
  (forall a b c d, T (parse_unary_op fs li n a b c d)) /\
  (forall a, T (parse_obj fs li n a)) /\
  (forall a b c d, T (pairs_loop fs li n a b c (Some d))) /\
  (forall a b c d, T (parse_field_value_pair fs li n a b c (Some d))) /\
  (forall a b, T (parse_arr fs li n a b)) /\
  (forall a b c d e, T (arr_loop fs li n a b c d e)) /\
  (forall a b, T (parse_tup fs li n a b)) /\
  (forall a b c, T (tup_loop fs li n a b c)) /\
  (forall a b c d e, T (parse_variable fs li n a b c d e)) /\
  (forall a b, T (parse_include fs li n a b)).
Lemma T_peeku : T peek_unwrap. Proof. unfold peek_unwrap. ks. Qed.
Lemma T_at {A} (m : M A) s : ne s -> T m -> E m s. Proof. auto. Qed.
Lemma E_at_sign {B} (F : str -> M B) s ch r : s_rest s = ch :: r -> ne s -> (forall v, T (F v)) ->
  E (bind (if ch =? c_at then let* c := next_unwrap in ret [c] else ret []) F) s.
Proof.
  intros Q N X. destruct (ch =? c_at) eqn:A.
  - apply N.eqb_eq in A. subst ch.
    assert (Z : forall s, bind (let* c := next_unwrap in ret [c]) F s = bind next_unwrap (fun c => F [c]) s).
    { intros s0. unfold bind, ret. destruct (next_unwrap s0) as [[]]; reflexivity. }
    unfold E. rewrite !Z. apply (E_next_unwrap _ s c_at r Q); [discriminate|exact N|]. apply X.
  - apply (X [] s N).
Qed.
Lemma T_close {B} (K : M B) kd : T K ->
  T (bind next_unwrap (fun c => if negb (c =? c_gt) then bind getline (fun l => bind col_minus_1 (fun k => fail (kd c l k))) else K)).
Proof.
  intros H s N. destruct (ne_head s N) as (c & r & Q). destruct (N.eqb_spec c c_gt) as [->|D].
  - apply (E_next_unwrap _ s c_gt r Q); [discriminate|exact N|]. exact H.
  - apply N.eqb_neq in D. unfold E, bind, next_unwrap, bind, next. cbn [ex s_rest s_line s_col]. rewrite Q. cbn [app]. destruct (adv c _ _) as [l k]. cbn. rewrite D. cbn.
    unfold col_minus_1. cbn. destruct (k =? 0); cbn; auto. right. eexists. split; reflexivity.
Qed.
Lemma TT_all n : TT n.
Proof.
  induction n as [|n (H1&H2&H3&H4&H5&H6&H7&H8&H9&H10&H11&H12)].
  - unfold TT. repeat (split; [intros; apply T_nofuel|]). intros; apply T_nofuel.
  -
    Ltac use12 H1 H2 H3 H4 H5 H6 H7 H8 H9 H10 H11 H12 :=
      repeat (first [k1|apply H1|apply H2|apply H3|apply H4|apply H5|apply H6|apply H7|apply H8|apply H9|apply H10|apply H11|apply H12
        |apply T_str|apply T_numeric|apply T_field|apply T_binop|apply T_low|apply T_finish]).
    unfold TT.
    split; [intros; rewrite parse_value_S; apply T_bind; [apply T_peeku|intros ch]; use12 H1 H2 H3 H4 H5 H6 H7 H8 H9 H10 H11 H12|].
    split.
    { intros. rewrite parse_ops_S. intros s N. apply E_peek; [|exact N]. intros ch [r Q]. destruct (get_op ch) as [op|] eqn:G; [|apply T_at; [exact N|apply T_ret]].
      apply (E_next _ s ch r Q); [intros ->; discriminate G|exact N|]. use12 H1 H2 H3 H4 H5 H6 H7 H8 H9 H10 H11 H12. }
    split.
    { intros a b c d. rewrite parse_unary_op_S. intros s N. destruct (ne_head s N) as (x & r & Q).
      destruct (match d with UMinus => opt_char_eqb (Some x) (Some c_minus) | UPlus => opt_char_eqb (Some x) (Some c_plus) end) eqn:A.
      - apply (E_next _ s x r Q); [intros ->; destruct d; discriminate A|exact N|]. rewrite A. use12 H1 H2 H3 H4 H5 H6 H7 H8 H9 H10 H11 H12.
      - unfold E, bind, next. rewrite Q. destruct (adv x _ _). rewrite A. exact I. }
    split; [intros; rewrite parse_obj_S; use12 H1 H2 H3 H4 H5 H6 H7 H8 H9 H10 H11 H12|].
    split; [intros; rewrite pairs_loop_S; use12 H1 H2 H3 H4 H5 H6 H7 H8 H9 H10 H11 H12|].
    split.
    { intros a b c d. rewrite parse_field_value_pair_S. intros s N. apply E_peek_unwrap; [|exact N]. intros ch [r Q].
      destruct ((ch =? c_rbrace) && true)%bool eqn:B.
      - apply (E_next _ s ch r Q); [intros ->; discriminate B|exact N|apply T_ret].
      - apply T_at; [exact N|]. use12 H1 H2 H3 H4 H5 H6 H7 H8 H9 H10 H11 H12. }
    split; [intros; rewrite parse_arr_S; use12 H1 H2 H3 H4 H5 H6 H7 H8 H9 H10 H11 H12|].
    split.
    { intros a b c d e. rewrite arr_loop_S. apply T_find. intros s N. apply E_peek_unwrap; [|exact N]. intros ch [r Q].
      destruct (ch =? c_rbrack) eqn:B.
      - apply (E_next _ s ch r Q); [intros ->; discriminate B|exact N|apply T_ret].
      - apply T_at; [exact N|]. use12 H1 H2 H3 H4 H5 H6 H7 H8 H9 H10 H11 H12. }
    split; [intros; rewrite parse_tup_S; use12 H1 H2 H3 H4 H5 H6 H7 H8 H9 H10 H11 H12|].
    split.
    { intros a b c. rewrite tup_loop_S. apply T_find. intros s N. apply E_peek_unwrap; [|exact N]. intros ch [r Q].
      destruct (ch =? c_rparen) eqn:B.
      - apply (E_next _ s ch r Q); [intros ->; discriminate B|exact N|apply T_ret].
      - apply T_at; [exact N|]. use12 H1 H2 H3 H4 H5 H6 H7 H8 H9 H10 H11 H12. }
    split.
    { intros a b c d e. rewrite parse_variable_S. cbv zeta. intros s N. apply E_peek_unwrap; [|exact N]. intros ch [r Q].
      apply (E_at_sign _ s ch r Q N). intros var. apply T_bind; [apply (T_scan (fun r l k => scan_var r l k var)), var_ok|].
      intros sc. use12 H1 H2 H3 H4 H5 H6 H7 H8 H9 H10 H11 H12. }
    intros. rewrite parse_include_S. use12 H1 H2 H3 H4 H5 H6 H7 H8 H9 H10 H11 H12;
      apply (T_close _ (fun c l k => InvalidClosingBracket (Some c_gt) c l k)); use12 H1 H2 H3 H4 H5 H6 H7 H8 H9 H10 H11 H12.
Qed.
(** ** The top level of a file: it may also end well where the text ends *)
Definition W {A} (stop : A -> Prop) (m : M A) : Prop := forall s, ne s -> (exists a s1, m s = (Ok a, s1) /\ stop a) \/ E m s.
Lemma W_T {A} stop (m : M A) : T m -> W stop m. Proof. intros H s N. right. apply H, N. Qed.
Lemma W_bind {A B} (stop : B -> Prop) (m : M A) (f : A -> M B) : T m -> (forall a, W stop (f a)) -> W stop (bind m f).
Proof.
  intros H K s N. pose proof (H s N) as H1. unfold E in H1. destruct (m s) as [[a|e| |] s1] eqn:R.
  - destruct H1 as (N1 & F1 & H1). destruct (K a s1 N1) as [(b & s2 & X & Y)|X].
    + left. exists b, s2. unfold bind. rewrite R. auto.
    + right. apply E_bind; [unfold E; rewrite R; auto|]. intros a' s1' R'. rewrite R in R'. injection R' as <- <-. auto.
  - right. apply E_bind; [unfold E; rewrite R; auto|]. intros a' s1' R'. congruence.
  - right. apply E_bind; [unfold E; rewrite R; auto|]. intros a' s1' R'. congruence.
  - right. apply E_bind; [unfold E; rewrite R; auto|]. intros a' s1' R'. congruence.
Qed.
(** looking for a character where the text may end *)
Lemma W_find {B} (stop : B -> Prop) x (K : M B) : stop x -> W stop K -> W stop (bind find_char (fun found => if negb found then ret x else K)).
Proof.
  intros X H s N. pose proof (find_ok (s_rest s) false (s_line s) (s_col s) (or_intror N)) as F.
  unfold E, bind, find_char. destruct (find_char_l (s_rest s) (s_line s) (s_col s) false) as [y [[r l] k]] eqn:Q.
  destruct F as [[-> ->]|(-> & Y & F)]; cbn [negb].
  - left. exists x. eexists. split; [reflexivity|exact X].
  - cbn [ex s_rest s_line s_col]. rewrite F. cbn [negb]. exact (H (set_stream s r l k) Y).
Qed.
Lemma W_find_must {B} (stop : B -> Prop) (K : M B) : W stop K -> W stop (bind find_char (fun found => if negb found then bind getline (fun l => fail (UnexpectedEnd l)) else K)).
Proof.
  intros H s N. pose proof (find_ok (s_rest s) false (s_line s) (s_col s) (or_intror N)) as F.
  unfold E, bind, find_char. destruct (find_char_l (s_rest s) (s_line s) (s_col s) false) as [y [[r l] k]] eqn:Q.
  destruct F as [[-> ->]|(-> & Y & F)]; cbn [negb].
  - right. left. exists l. reflexivity.
  - cbn [ex s_rest s_line s_col]. rewrite F. cbn [negb]. exact (H (set_stream s r l k) Y).
Qed.
Definition last_pair (x : bool * list pair_t * option obj) : Prop := fst (fst x) = false.
Lemma W_pair n a b c : W last_pair (parse_field_value_pair fs li n a b c None).
Proof.
  destruct n as [|n]; [apply W_T, T_nofuel|]. rewrite parse_field_value_pair_S. apply W_bind; [apply T_peeku|]. intros ch. rewrite andb_false_r. cbv iota.
  destruct (is_end_delimiter ch); [apply W_T; ks|]. apply W_bind; [ks|]. intros [l k]. apply W_bind; [apply T_field|]. intros [fn ft].
  apply W_bind; [destruct ft; ks|]. intros _. apply W_find_must. apply W_bind; [ks|]. intros [vl vk].
  apply W_bind; [apply (TT_all n)|]. intros v. apply W_bind; [destruct ft; ks|]. intros [ps' par'].
  apply (W_find last_pair (false, ps', par')); [reflexivity|]. apply W_T. ks.
Qed.
Lemma W_loop n : forall a b c, W (fun _ => True) (pairs_loop fs li n a b c None).
Proof.
  induction n as [|n IH]; intros a b c; [apply W_T, T_nofuel|]. rewrite pairs_loop_S. intros s N.
  destruct (W_pair n a b c s N) as [([[m ps] par] & s1 & R & Q)|H].
  - left. unfold last_pair in Q. cbn in Q. subst m. unfold bind. rewrite R. exists (ps, par), s1. split; [reflexivity|exact I].
  - unfold E in H. destruct (parse_field_value_pair fs li n a b c None s) as [[[[m ps] par]|e| |] s1] eqn:R.
    + destruct H as (N1 & F1 & H1). destruct m.
      * destruct (IH ps par c s1 N1) as [(x & s2 & X & Y)|X].
        -- left. exists x, s2. unfold bind. rewrite R. auto.
        -- right. apply E_bind; [unfold E; rewrite R; auto|]. intros a' s1' R'. rewrite R in R'. injection R' as <- <-. auto.
      * left. unfold bind. rewrite R. exists (ps, par), s1. split; [reflexivity|exact I].
    + right. apply E_bind; [unfold E; rewrite R; exact H|]. intros a' s1' R'. congruence.
    + right. apply E_bind; [unfold E; rewrite R; exact H|]. intros a' s1' R'. congruence.
    + right. apply E_bind; [unfold E; rewrite R; exact H|]. intros a' s1' R'. congruence.
Qed.
Lemma W_obj_stream n : forall s, ne s -> (exists o s1, parse_obj_stream fs li n s = (Ok o, s1)) \/ E (parse_obj_stream fs li n) s.
Proof.
  intros s N. pose proof (find_ok (s_rest s) false (s_line s) (s_col s) (or_intror N)) as F.
  assert (D : forall s0, parse_obj_stream fs li n s0 = let '(x, (r, l, k)) := find_char_l (s_rest s0) (s_line s0) (s_col s0) false in
    (if negb x then new_obj [] None else bind (pairs_loop fs li n [] None 1 None) (fun '(ps, par) => new_obj ps par)) (set_stream s0 r l k)).
  { intros s0. unfold parse_obj_stream, bind at 1, find_char. destruct (find_char_l (s_rest s0) (s_line s0) (s_col s0) false) as [x [[r l] k]]. reflexivity. }
  unfold E. rewrite !D. cbn [ex s_rest s_line s_col].
  destruct (find_char_l (s_rest s) (s_line s) (s_col s) false) as [y [[r l] k]].
  destruct F as [[-> ->]|(-> & Y & F)]; cbn [negb].
  - left. unfold new_obj, bind, gen_id, ret. eexists. eexists. reflexivity.
  - rewrite F. cbn [negb].
    assert (Z : ne (set_stream s r l k)) by exact Y.
    destruct (W_loop n [] None 1 _ Z) as [([ps par] & s2 & R & _)|X].
    + left. unfold bind. rewrite R. unfold new_obj, bind, gen_id, ret. eexists. eexists. reflexivity.
    + right. refine (E_bind _ (fun '(ps, par) => new_obj ps par) _ X _). intros [ps par] s2 _ N2. apply T_at; [exact N2|]. unfold new_obj. ks.
Qed.
(** A stream that fails, and not for want of text, fails in the same way whatever follows. *)
Lemma stream_fault n m file t sh pe h : (n <= m)%nat -> whole_lines t ->
  run_stream (parse_obj_stream fs li n) file t sh = (Err pe, h) -> ~ too_short file pe ->
  run_stream (parse_obj_stream fs li m) file (t ++ more) sh = (Err pe, h).
Proof.
  intros L Wt R Ns. unfold run_stream in *. set (s := mkst file t 1 1 [] sh) in *.
  destruct (W_obj_stream n s Wt) as [(o & s1 & X)|X]; [rewrite X in R; discriminate|].
  unfold E in X. destruct (parse_obj_stream fs li n s) as [o s1]. destruct o; try discriminate.
  injection R as -> <-. destruct X as [X|(s1' & X & Y)]; [contradiction|].
  assert (Up : upto (parse_obj_stream fs li n) (parse_obj_stream fs li m)) by (apply upto_obj_stream; [intros; right; reflexivity|exact L]).
  destruct (Up (ex s)) as [Z|Z]; [rewrite X in Z; discriminate|]. change (mkst file (t ++ more) 1 1 [] sh) with (ex s). rewrite Z, X, Y. reflexivity.
Qed.
End Files.
End E.
