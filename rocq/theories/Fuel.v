(** * Fuel: the recursion budget of the model is not observable.  With a larger budget the result
    is the same, unless the smaller one was exhausted. *)
From Verif Require Export Parser ParserEq.
Open Scope N_scope.

(** [m] and [m'] agree wherever [m] does not run out of fuel. *)
Definition upto {A} (m m' : M A) : Prop := forall s, fst (m s) = NoFuel \/ m' s = m s.

Lemma upto_refl {A} (m : M A) : upto m m.
Proof. intros s. auto. Qed.
Lemma upto_bind {A B} (m m' : M A) (f f' : A -> M B) :
  upto m m' -> (forall a, upto (f a) (f' a)) -> upto (bind m f) (bind m' f').
Proof.
  intros Hm Hf s. unfold bind. destruct (Hm s) as [H|H].
  - left. destruct (m s) as [[] ?]; cbn in *; congruence.
  - rewrite H. destruct (m s) as [[] ?]; auto. apply Hf.
Qed.
Lemma upto_nofuel {A} (m : M A) : upto nofuel m.
Proof. intros s. left. reflexivity. Qed.
Lemma upto_if {A} (b : bool) (m m' n n' : M A) :
  upto m m' -> upto n n' -> upto (if b then m else n) (if b then m' else n').
Proof. destruct b; auto. Qed.

Section Fuel.
Context `{U : Unicode}.
Variable fs : fsys.
Variables li li' : inc_ty -> str -> shared -> outcome value * shared.
Hypothesis Hli : forall ty p sh, fst (li ty p sh) = NoFuel \/ li' ty p sh = li ty p sh.

Lemma upto_finish ty f l k : upto (finish_include fs li ty f l k) (finish_include fs li' ty f l k).
Proof.
  unfold finish_include.
  repeat match goal with
  | |- upto ?m ?m => apply upto_refl
  | |- upto (bind _ _) (bind _ _) => apply upto_bind; [|intros]
  | |- upto (if _ then _ else _) (if _ then _ else _) => apply upto_if
  | |- upto (match ?x with _ => _ end) _ => destruct x
  end.
  intros st. unfold run_include. destruct (Hli ty match a with Some f0 => beside f0 f | None => f end (s_sh st)) as [H|H].
  - left. destruct (li _ _ _); auto.
  - right. rewrite H. reflexivity.
Qed.

Ltac step0 :=
  match goal with
  | |- upto (bind _ _) (bind _ _) => apply upto_bind; [|intros]
  | |- upto (if _ then _ else _) (if _ then _ else _) => apply upto_if
  | |- upto (match ?x with _ => _ end) _ => destruct x
  | |- upto (finish_include _ _ _ _ _ _) _ => apply upto_finish
  | |- upto (parse_value _ _ _ _ _ _ _ _ _) _ => fail 1
  | |- upto (parse_ops _ _ _ _ _ _ _ _) _ => fail 1
  | |- upto (parse_unary_op _ _ _ _ _ _ _) _ => fail 1
  | |- upto (parse_obj _ _ _ _) _ => fail 1
  | |- upto (pairs_loop _ _ _ _ _ _ _) _ => fail 1
  | |- upto (parse_field_value_pair _ _ _ _ _ _ _) _ => fail 1
  | |- upto (parse_arr _ _ _ _ _) _ => fail 1
  | |- upto (arr_loop _ _ _ _ _ _ _ _) _ => fail 1
  | |- upto (parse_tup _ _ _ _ _) _ => fail 1
  | |- upto (tup_loop _ _ _ _ _ _) _ => fail 1
  | |- upto (parse_variable _ _ _ _ _ _ _ _) _ => fail 1
  | |- upto (parse_include _ _ _ _ _) _ => fail 1
  | |- upto (arr_file_loop _ _ _ _ _ _) _ => fail 1
  | |- upto (tup_file_loop _ _ _ _) _ => fail 1
  | |- _ => apply upto_refl
  end.
Ltac go := repeat step0.

Definition UT (n m : nat) : Prop :=
  (forall a b c d e f, upto (parse_value fs li n a b c d e f) (parse_value fs li' m a b c d e f)) /\
  (forall a b c d e, upto (parse_ops fs li n a b c d e) (parse_ops fs li' m a b c d e)) /\
  (forall a b c d, upto (parse_unary_op fs li n a b c d) (parse_unary_op fs li' m a b c d)) /\
  (forall a, upto (parse_obj fs li n a) (parse_obj fs li' m a)) /\
  (forall a b c d, upto (pairs_loop fs li n a b c d) (pairs_loop fs li' m a b c d)) /\
  (forall a b c d, upto (parse_field_value_pair fs li n a b c d) (parse_field_value_pair fs li' m a b c d)) /\
  (forall a b, upto (parse_arr fs li n a b) (parse_arr fs li' m a b)) /\
  (forall a b c d e, upto (arr_loop fs li n a b c d e) (arr_loop fs li' m a b c d e)) /\
  (forall a b, upto (parse_tup fs li n a b) (parse_tup fs li' m a b)) /\
  (forall a b c, upto (tup_loop fs li n a b c) (tup_loop fs li' m a b c)) /\
  (forall a b c d e, upto (parse_variable fs li n a b c d e) (parse_variable fs li' m a b c d e)) /\
  (forall a b, upto (parse_include fs li n a b) (parse_include fs li' m a b)).

Lemma UT_all n : forall m, (n <= m)%nat -> UT n m.
Proof.
  induction n as [|n IH]; intros m L.
  - unfold UT. repeat split; intros; apply upto_nofuel.
  - destruct m as [|m]; [lia|]. destruct (IH m ltac:(lia)) as (H1&H2&H3&H4&H5&H6&H7&H8&H9&H10&H11&H12).
    Ltac use H1 H2 H3 H4 H5 H6 H7 H8 H9 H10 H11 H12 :=
      match goal with
      | |- upto (parse_value _ _ _ _ _ _ _ _ _) _ => apply H1
      | |- upto (parse_ops _ _ _ _ _ _ _ _) _ => apply H2
      | |- upto (parse_unary_op _ _ _ _ _ _ _) _ => apply H3
      | |- upto (parse_obj _ _ _ _) _ => apply H4
      | |- upto (pairs_loop _ _ _ _ _ _ _) _ => apply H5
      | |- upto (parse_field_value_pair _ _ _ _ _ _ _) _ => apply H6
      | |- upto (parse_arr _ _ _ _ _) _ => apply H7
      | |- upto (arr_loop _ _ _ _ _ _ _ _) _ => apply H8
      | |- upto (parse_tup _ _ _ _ _) _ => apply H9
      | |- upto (tup_loop _ _ _ _ _ _) _ => apply H10
      | |- upto (parse_variable _ _ _ _ _ _ _ _) _ => apply H11
      | |- upto (parse_include _ _ _ _ _) _ => apply H12
      end.
    unfold UT.
    split; [intros; rewrite !parse_value_S; go; use H1 H2 H3 H4 H5 H6 H7 H8 H9 H10 H11 H12|].
    split; [intros; rewrite !parse_ops_S; go; use H1 H2 H3 H4 H5 H6 H7 H8 H9 H10 H11 H12|].
    split; [intros; rewrite !parse_unary_op_S; go; use H1 H2 H3 H4 H5 H6 H7 H8 H9 H10 H11 H12|].
    split; [intros; rewrite !parse_obj_S; go; use H1 H2 H3 H4 H5 H6 H7 H8 H9 H10 H11 H12|].
    split; [intros; rewrite !pairs_loop_S; go; use H1 H2 H3 H4 H5 H6 H7 H8 H9 H10 H11 H12|].
    split; [intros; rewrite !parse_field_value_pair_S; go; use H1 H2 H3 H4 H5 H6 H7 H8 H9 H10 H11 H12|].
    split; [intros; rewrite !parse_arr_S; go; use H1 H2 H3 H4 H5 H6 H7 H8 H9 H10 H11 H12|].
    split; [intros; rewrite !arr_loop_S; go; use H1 H2 H3 H4 H5 H6 H7 H8 H9 H10 H11 H12|].
    split; [intros; rewrite !parse_tup_S; go; use H1 H2 H3 H4 H5 H6 H7 H8 H9 H10 H11 H12|].
    split; [intros; rewrite !tup_loop_S; go; use H1 H2 H3 H4 H5 H6 H7 H8 H9 H10 H11 H12|].
    split; [intros; rewrite !parse_variable_S; go; cbv zeta; go; use H1 H2 H3 H4 H5 H6 H7 H8 H9 H10 H11 H12|].
    intros; rewrite !parse_include_S; go; use H1 H2 H3 H4 H5 H6 H7 H8 H9 H10 H11 H12.
Qed.

Lemma upto_obj_stream n m : (n <= m)%nat ->
  upto (parse_obj_stream fs li n) (parse_obj_stream fs li' m).
Proof.
  intros L. destruct (UT_all n m L) as (_&_&_&_&H&_). unfold parse_obj_stream. go. apply H.
Qed.
Lemma upto_arr_stream n m : (n <= m)%nat ->
  upto (parse_arr_stream fs li n) (parse_arr_stream fs li' m).
Proof.
  intros L. unfold parse_arr_stream. apply upto_bind; [|intros; apply upto_refl].
  enough (K : forall vs t any, upto (arr_file_loop fs li n vs t any) (arr_file_loop fs li' m vs t any))
    by apply K.
  revert m L. induction n as [|n IH]; intros m L vs t any; [apply upto_nofuel|].
  destruct m as [|m]; [lia|]. destruct (UT_all n m ltac:(lia)) as (H&_).
  cbn [arr_file_loop]. go; [apply H|apply IH; lia].
Qed.
Lemma upto_tup_stream n m : (n <= m)%nat ->
  upto (parse_tup_stream fs li n) (parse_tup_stream fs li' m).
Proof.
  intros L. unfold parse_tup_stream. apply upto_bind; [|intros; apply upto_refl].
  enough (K : forall vs, upto (tup_file_loop fs li n vs) (tup_file_loop fs li' m vs))
    by apply K.
  revert m L. induction n as [|n IH]; intros m L vs; [apply upto_nofuel|].
  destruct m as [|m]; [lia|]. destruct (UT_all n m ltac:(lia)) as (H&_).
  cbn [tup_file_loop]. go; [apply H|apply IH; lia].
Qed.
End Fuel.

Lemma upto_run {A} (p p' : M A) f c sh : upto p p' ->
  fst (run_stream p f c sh) = NoFuel \/ run_stream p' f c sh = run_stream p f c sh.
Proof.
  intros H. unfold run_stream. destruct (H (mkst f c 1 1 [] sh)) as [E|E].
  - left. destruct (p _); auto.
  - right. rewrite E. auto.
Qed.

Lemma load_file_mono `{U : Unicode} fs k : forall k' ty path sh, (k <= k')%nat ->
  fst (load_file fs k ty path sh) = NoFuel \/ load_file fs k' ty path sh = load_file fs k ty path sh.
Proof.
  induction k as [|k IH]; intros k' ty path sh L; [left; reflexivity|].
  destruct k' as [|k']; [lia|]. cbn [load_file].
  destruct (open_file fs path sh) as [[contents|e] sh']; [|right; reflexivity].
  assert (Hli : forall ty p sh, fst (load_file fs k ty p sh) = NoFuel \/
                 load_file fs k' ty p sh = load_file fs k ty p sh) by (intros; apply IH; lia).
  destruct ty; [|right; reflexivity| |].
  - destruct (upto_run _ _ (Some path) contents sh' (upto_obj_stream fs _ _ Hli (stream_fuel contents) _ (le_n _)))
      as [E|E]; [left|right; rewrite E; reflexivity].
    destruct (run_stream _ _ _ _) as [[] ?]; cbn [fst] in E; try discriminate E; reflexivity.
  - destruct (upto_run _ _ (Some path) contents sh' (upto_arr_stream fs _ _ Hli (stream_fuel contents) _ (le_n _)))
      as [E|E]; [left|right; rewrite E; reflexivity].
    destruct (run_stream _ _ _ _) as [[] ?]; cbn [fst] in E; try discriminate E; reflexivity.
  - destruct (upto_run _ _ (Some path) contents sh' (upto_tup_stream fs _ _ Hli (stream_fuel contents) _ (le_n _)))
      as [E|E]; [left|right; rewrite E; reflexivity].
    destruct (run_stream _ _ _ _) as [[] ?]; cbn [fst] in E; try discriminate E; reflexivity.
Qed.
