(** * CountProofs: the meter changes nothing, and what it shows at the end. *)
From Verif Require Export Count ParserEq Induct IncSpec.
From Coq Require String.
Import String.StringSyntax.
Open Scope N_scope.

(** ** The meter changes nothing *)
Definition er {A} (c : Mt A) (m : M A) : Prop := forall s, fst (c s) = m s.
Lemma er_lift {A} (m : M A) : er (lift m) m.
Proof. intros s. reflexivity. Qed.
Lemma er_tick {A} (c : Mt A) m : er c m -> er (tick c) m.
Proof. intros E s. rewrite <- E. unfold tick. destruct (c s). reflexivity. Qed.
Lemma er_bind {A B} (c : Mt A) m (f : A -> Mt B) g : er c m -> (forall a, er (f a) (g a)) -> er (cbind c f) (bind m g).
Proof.
  intros E F s. unfold cbind, bind. specialize (E s). destruct (c s) as [[[a|e| |] s'] u]; cbn in E; rewrite <- E; auto.
  specialize (F a s'). destruct (f a s'). exact F.
Qed.
Lemma er_spare {B} n (c : Mt B) m : er c m -> er (cbind (c_spare n) (fun _ => c)) m.
Proof. intros E s. specialize (E s). unfold cbind, c_spare. destruct (c s). exact E. Qed.
Lemma er_spare_m {A B} n (c : Mt A) m (f : A -> Mt B) g : er c m -> (forall a, er (f a) (g a)) ->
  er (cbind (cbind (c_spare n) (fun _ => c)) f) (bind m g).
Proof. intros E F. apply er_bind; auto. apply er_spare, E. Qed.
Section Er.
Context `{U : Unicode}.
Variable fs : fsys.
Variable lic : inc_ty -> str -> shared -> (outcome value * shared) * meter.
Variable li : inc_ty -> str -> shared -> outcome value * shared.
Hypothesis HL : forall ty p sh, fst (lic ty p sh) = li ty p sh.

Ltac e1 :=
  match goal with
  | |- er (tick _) _ => apply er_tick
  | |- er (cbind (c_spare _) _) _ => apply er_spare
  | |- er (cbind _ _) (bind _ _) => apply er_bind; [|intros]
  | |- er (if ?b then _ else _) _ => destruct b
  | |- er (match ?x with _ => _ end) _ => destruct x
  | |- er (lift ?m) ?m => apply er_lift
  | |- er _ (let _ := _ in _) => cbv zeta
  | |- er _ (?m _ _) => progress unfold c_new_obj, c_new_arr, c_new_tup, c_include_token, c_index_by, c_unary_op_on_value, c_binary_op_on_values, c_parse_numeric, c_parse_field, c_insert_global
  | H : _ |- _ => apply H
  | |- er _ _ => apply er_lift
  end.
Lemma er_low ops : forall v vals, er (ct_eval_low_ops v vals ops) (eval_low_ops v vals ops).
Proof.
  induction ops as [|op ops IH]; intros v vals; [destruct vals; apply er_lift|].
  destruct vals as [|[[v2 l2] c2] vals]; [exact (er_tick _ _ (er_lift panic))|].
  exact (er_tick _ _ (er_bind _ _ _ _ (er_spare _ _ _ (er_spare _ _ _ (er_lift (binary_op_on_values v v2 op l2 c2)))) (fun x => IH x vals))).
Qed.
Lemma er_include ty p : er (ct_run_include lic ty p) (run_include li ty p).
Proof. intros s. unfold ct_run_include, run_include. rewrite <- HL. destruct (lic ty p (s_sh s)) as [[o sh] u]. reflexivity. Qed.
Lemma er_finish ty f l k : er (ct_finish_include fs lic ty f l k) (finish_include fs li ty f l k).
Proof. pose proof er_include. unfold ct_finish_include, finish_include. repeat e1. Qed.
Definition ER (n : nat) : Prop :=
  (forall a b c d e f, er (ct_parse_value fs lic n a b c d e f) (parse_value fs li n a b c d e f)) /\
  (forall a b c d e, er (ct_parse_ops fs lic n a b c d e) (parse_ops fs li n a b c d e)) /\
  (forall a b c d, er (ct_parse_unary_op fs lic n a b c d) (parse_unary_op fs li n a b c d)) /\
  (forall a, er (ct_parse_obj fs lic n a) (parse_obj fs li n a)) /\
  (forall a b c d, er (ct_pairs_loop fs lic n a b c d) (pairs_loop fs li n a b c d)) /\
  (forall a b c d, er (ct_parse_field_value_pair fs lic n a b c d) (parse_field_value_pair fs li n a b c d)) /\
  (forall a b, er (ct_parse_arr fs lic n a b) (parse_arr fs li n a b)) /\
  (forall a b c d e, er (ct_arr_loop fs lic n a b c d e) (arr_loop fs li n a b c d e)) /\
  (forall a b, er (ct_parse_tup fs lic n a b) (parse_tup fs li n a b)) /\
  (forall a b c, er (ct_tup_loop fs lic n a b c) (tup_loop fs li n a b c)) /\
  (forall a b c d e, er (ct_parse_variable fs lic n a b c d e) (parse_variable fs li n a b c d e)) /\
  (forall a b, er (ct_parse_include fs lic n a b) (parse_include fs li n a b)).
Lemma ER_all n : ER n.
Proof.
  induction n as [|n (H1&H2&H3&H4&H5&H6&H7&H8&H9&H10&H11&H12)]; [unfold ER; repeat split; intros; apply er_lift|].
  pose proof er_finish as Hf. pose proof er_low as Hl. unfold ER; repeat split; intros.
  - rewrite ct_parse_value_S, parse_value_S. repeat e1.
  - rewrite ct_parse_ops_S, parse_ops_S. repeat e1.
  - rewrite ct_parse_unary_op_S, parse_unary_op_S. repeat e1.
  - rewrite ct_parse_obj_S, parse_obj_S. repeat e1.
  - rewrite ct_pairs_loop_S, pairs_loop_S. repeat e1.
  - rewrite ct_parse_field_value_pair_S, parse_field_value_pair_S. repeat e1.
  - rewrite ct_parse_arr_S, parse_arr_S. repeat e1.
  - rewrite ct_arr_loop_S, arr_loop_S. repeat e1.
  - rewrite ct_parse_tup_S, parse_tup_S. repeat e1.
  - rewrite ct_tup_loop_S, tup_loop_S. repeat e1.
  - rewrite ct_parse_variable_S, parse_variable_S. repeat e1.
  - rewrite ct_parse_include_S, parse_include_S. repeat e1.
Qed.
Lemma er_obj_stream n : er (ct_parse_obj_stream fs lic n) (parse_obj_stream fs li n).
Proof. destruct (ER_all n) as (_&_&_&_&H&_). unfold ct_parse_obj_stream, parse_obj_stream. repeat e1. Qed.
Lemma er_arr_stream n : er (ct_parse_arr_stream fs lic n) (parse_arr_stream fs li n).
Proof.
  assert (H : forall n vs t any, er (ct_arr_file_loop fs lic n vs t any) (arr_file_loop fs li n vs t any)).
  { clear n. induction n as [|n IH]; intros; [apply er_lift|]. cbn. destruct (ER_all n) as (H&_). repeat e1. }
  unfold ct_parse_arr_stream, parse_arr_stream. repeat e1.
Qed.
Lemma er_tup_stream n : er (ct_parse_tup_stream fs lic n) (parse_tup_stream fs li n).
Proof.
  assert (H : forall n vs, er (ct_tup_file_loop fs lic n vs) (tup_file_loop fs li n vs)).
  { clear n. induction n as [|n IH]; intros; [apply er_lift|]. cbn. destruct (ER_all n) as (H&_). repeat e1. }
  unfold ct_parse_tup_stream, parse_tup_stream. repeat e1.
Qed.
End Er.
Section ErLoad.
Context `{U : Unicode}.
Variable fs : fsys.
Lemma er_run {A} (c : Mt A) m file t sh : er c m -> fst (ct_run_stream c file t sh) = run_stream m file t sh.
Proof. intros E. unfold ct_run_stream, run_stream. rewrite <- E. destruct (c _) as [[o s] u]. reflexivity. Qed.
Lemma er_load k : forall ty p sh, fst (ct_load_file fs k ty p sh) = load_file fs k ty p sh.
Proof.
  induction k as [|k IH]; intros ty p sh; [reflexivity|]. cbn [ct_load_file load_file].
  destruct (open_file fs p sh) as [[t|e] sh']; [|reflexivity].
  destruct ty.
  - rewrite <- (er_run _ _ (Some p) t sh' (er_obj_stream fs _ _ IH (stream_fuel t))). destruct (ct_run_stream _ _ _ _) as [[? ?] ?]; reflexivity.
  - reflexivity.
  - rewrite <- (er_run _ _ (Some p) t sh' (er_arr_stream fs _ _ IH (stream_fuel t))). destruct (ct_run_stream _ _ _ _) as [[? ?] ?]; reflexivity.
  - rewrite <- (er_run _ _ (Some p) t sh' (er_tup_stream fs _ _ IH (stream_fuel t))). destruct (ct_run_stream _ _ _ _) as [[? ?] ?]; reflexivity.
Qed.
Lemma er_str g t : fst (metered_str fs g t) = parse_obj_str fs g t.
Proof. apply er_run, er_obj_stream, er_load. Qed.
Lemma er_file g p : fst (metered_file fs g p) = parse_obj_file fs g p.
Proof.
  unfold metered_file, parse_obj_file. destruct (open_file fs p (init_sh g)) as [[t|e] sh]; [|reflexivity].
  rewrite <- (er_run _ _ (Some p) t sh (er_obj_stream fs _ _ (er_load (inc_fuel fs)) (stream_fuel t))).
  destruct (ct_run_stream _ _ _ _) as [r u]. reflexivity.
Qed.
End ErLoad.

(** ** The bound *)
Definition slen (s : pstate) : Z := Z.of_nat (length (s_rest s)).
Fixpoint sumZ (W : nat -> Z) (l : list nat) : Z := match l with [] => 0%Z | i :: l => (W i + sumZ W l)%Z end.
Lemma sumZ_app W a b : sumZ W (a ++ b) = (sumZ W a + sumZ W b)%Z.
Proof. induction a as [|i a IH]; cbn [app sumZ]; lia. Qed.

(** What a leaf takes from the stream. *)
Definition shr {A} (m : M A) : Prop := forall s, (slen (snd (m s)) <= slen s)%Z.
Lemma shr_bind {A B} (m : M A) (f : A -> M B) : shr m -> (forall a, shr (f a)) -> shr (bind m f).
Proof. intros H F s. specialize (H s). unfold bind. destruct (m s) as [[a|e| |] s']; cbn in *; auto. specialize (F a s'). lia. Qed.
Lemma shr_same {A} (m : M A) : (forall s, s_rest (snd (m s)) = s_rest s) -> shr m.
Proof. intros H s. unfold slen. rewrite H. lia. Qed.
Lemma shr_scan {A} (f : str -> N -> N -> A * (str * N * N)) :
  (forall r l k x q, f r l k = (x, q) -> exists con, scanned r l k con q) ->
  shr (fun s => let '(x, (r, l, k)) := f (s_rest s) (s_line s) (s_col s) in (Ok x, set_stream s r l k)).
Proof.
  intros H s. destruct (f (s_rest s) (s_line s) (s_col s)) as [x [[r l] k]] eqn:E. apply H in E as (con & E & _).
  unfold slen. cbn [snd set_stream s_rest]. rewrite E, app_length. cbn [fst]. lia.
Qed.
Lemma shr_next : shr next.
Proof. intros s. unfold next, slen. destruct (s_rest s) as [|c r] eqn:R; [cbn; rewrite R; reflexivity|]. destruct (adv _ _ _). cbn [snd set_stream s_rest length]. lia. Qed.
Lemma shr_find : shr find_char.
Proof. apply (shr_scan (fun r l k => find_char_l r l k false)). intros r l k x q E. apply find_char_l_spec in E as (con & E & _). eauto. Qed.
Lemma shr_sentinel k : shr (sentinel k).
Proof. apply shr_same. intros s. unfold sentinel. destruct (g_sent _ _); reflexivity. Qed.
Lemma shr_col : shr col_minus_1.
Proof. apply shr_same. intros s. unfold col_minus_1. destruct (_ =? _); reflexivity. Qed.
Ltac s1 :=
  match goal with
  | |- shr (bind _ _) => apply shr_bind; [|intros]
  | |- shr (if ?b then _ else _) => destruct b
  | |- shr (match ?x with _ => _ end) => destruct x
  | |- shr (let _ := _ in _) => cbv zeta
  | |- shr next => apply shr_next
  | |- shr find_char => apply shr_find
  | |- shr (sentinel _) => apply shr_sentinel
  | |- shr col_minus_1 => apply shr_col
  | |- shr (fun s => let '(x, q) := scan_str _ _ _ ?a ?b in _) =>
      apply (shr_scan (fun r l k => scan_str r l k a b)); let E := fresh in intros ? ? ? ? ? E; apply scan_str_spec in E as (? & E & _); eauto
  | |- shr (fun s => let '(x, q) := scan_numeric _ _ _ ?a ?b ?c ?d in _) =>
      apply (shr_scan (fun r l k => scan_numeric r l k a b c d)); let E := fresh in intros ? ? ? ? ? E; apply scan_numeric_spec in E as (? & E & _); eauto
  | |- shr (fun s => let '(x, q) := scan_field _ _ _ ?a ?b in _) =>
      apply (shr_scan (fun r l k => scan_field r l k a b)); let E := fresh in intros ? ? ? ? ? E; apply scan_field_spec in E as (? & E & _); eauto
  | |- shr (fun s => let '(x, q) := scan_var _ _ _ ?a in _) =>
      apply (shr_scan (fun r l k => scan_var r l k a)); let E := fresh in intros ? ? ? ? ? E; apply scan_var_spec in E as (? & E & _); eauto
  | |- shr (new_obj _ _) => unfold new_obj
  | |- shr (new_arr _ _) => unfold new_arr
  | |- shr (new_tup _) => unfold new_tup
  | |- shr (unwrap _) => unfold unwrap
  | |- shr (unwrap_o _) => unfold unwrap_o
  | |- shr (assert_ _) => unfold assert_
  | |- shr peek_unwrap => unfold peek_unwrap
  | |- shr next_unwrap => unfold next_unwrap
  | |- shr (check_value_end _) => unfold check_value_end
  | |- shr (parse_field _ _) => unfold parse_field
  | |- shr parse_str => unfold parse_str
  | |- shr (parse_bigint _) => unfold parse_bigint
  | |- shr (parse_numeric _ _) => unfold parse_numeric
  | |- shr (unary_op_on_value _ _ _ _) => unfold unary_op_on_value
  | |- shr (binary_op_on_values _ _ _ _ _) => unfold binary_op_on_values
  | |- shr (include_token _ _ _) => unfold include_token
  | |- shr (index_by _ _ _ _) => unfold index_by
  | |- shr (lookup_variable _ _ _ _ _) => unfold lookup_variable
  | |- shr _ => apply shr_same; intros ?; reflexivity
  end.

Section Bound.
Context `{U : Unicode}.
Lemma shr_str : shr parse_str. Proof. repeat s1. Qed.
Lemma shr_numeric l k : shr (parse_numeric l k). Proof. repeat s1. Qed.
Lemma shr_field l k : shr (parse_field l k). Proof. repeat s1. Qed.
Lemma shr_unary a b c d : shr (unary_op_on_value a b c d). Proof. repeat s1. Qed.
Lemma shr_binop a b c d e : shr (binary_op_on_values a b c d e). Proof. repeat s1. Qed.
Lemma shr_token a b c : shr (include_token a b c). Proof. repeat s1. Qed.
Lemma shr_index a b c d : shr (index_by a b c d). Proof. repeat s1. Qed.
Lemma shr_lookup a b c d e : shr (lookup_variable a b c d e). Proof. repeat s1. Qed.
Lemma shr_vscan v : shr (fun s => let '(x, (r, l, k)) := scan_var (s_rest s) (s_line s) (s_col s) v in (Ok x, set_stream s r l k)).
Proof. repeat s1. Qed.

(** What the consuming leaves take at least. *)
Lemma next_unwrap_takes s a q : next_unwrap s = (Ok a, q) -> slen q = (slen s - 1)%Z /\ exists r, s_rest s = a :: r.
Proof.
  unfold next_unwrap, bind, next, slen. destruct (s_rest s) as [|c r]; [discriminate|]. destruct (adv _ _ _).
  cbn [unwrap ret]. intros K. inversion K; subst. cbn [s_rest set_stream length]. split; [lia|eauto].
Qed.
Lemma peek_unwrap_sees s a q : peek_unwrap s = (Ok a, q) -> q = s /\ exists r, s_rest s = a :: r.
Proof. unfold peek_unwrap, bind, peek. destruct (s_rest s) as [|c r]; [discriminate|]. intros K. inversion K; subst. eauto. Qed.
Lemma peek_sees s a q : peek s = (Ok a, q) -> q = s /\ a = match s_rest s with [] => None | c :: _ => Some c end.
Proof. unfold peek. intros K. inversion K; subst. auto. Qed.
Lemma next_takes s a q : next s = (Ok a, q) -> s_rest s <> [] -> slen q = (slen s - 1)%Z.
Proof.
  unfold next, slen. destruct (s_rest s) as [|c r]; [congruence|]. destruct (adv _ _ _).
  intros K _. inversion K; subst. cbn [s_rest set_stream length]. lia.
Qed.
Lemma str_takes s a q : parse_str s = (Ok a, q) -> (slen q <= slen s - 1)%Z.
Proof.
  unfold parse_str. unfold bind at 1. destruct (next_unwrap s) as [[c|e| |] s1] eqn:N; try discriminate.
  apply next_unwrap_takes in N as [N _]. intros K. rewrite <- N.
  match type of K with ?m s1 = _ => assert (S : shr m) by (cbv beta zeta; repeat s1); specialize (S s1); rewrite K in S end. exact S.
Qed.
Lemma field_takes l k s a q : parse_field l k s = (Ok a, q) -> (slen q <= slen s - 1)%Z.
Proof.
  unfold parse_field. unfold bind at 1. destruct (peek_unwrap s) as [[c|e| |] s0] eqn:P; try discriminate.
  apply peek_unwrap_sees in P as [-> (r & R)]. cbv zeta. destruct (c =? c_at) eqn:A.
  - unfold bind at 1. unfold bind at 1. destruct (next_unwrap s) as [[c'|e| |] s1] eqn:N; try discriminate.
    apply next_unwrap_takes in N as [N _]. cbn [ret]. intros K. rewrite <- N.
    match type of K with ?m s1 = _ => assert (S : shr m) by (cbv beta zeta; repeat s1); specialize (S s1); rewrite K in S end. exact S.
  - unfold bind at 1. cbn [ret]. unfold bind at 1.
    destruct (scan_field (s_rest s) (s_line s) (s_col s) [] true) as [x [[r' l'] k']] eqn:E.
    apply scan_field_spec in E as (con & [E _] & F). cbn [fst snd] in E. intros K.
    assert (D : (slen (set_stream s r' l' k') <= slen s - 1)%Z).
    { destruct x as [w|c0].
      - destruct F as (w' & _ & _ & _ & F & _). unfold slen. cbn [s_rest set_stream]. rewrite E, app_length.
        destruct con; [exfalso; apply F; congruence|]. cbn [length]. lia.
      - destruct F as (con' & ->). unfold slen. cbn [s_rest set_stream]. rewrite E, !app_length. cbn [length]. lia. }
    match type of K with ?m ?z = _ => assert (S : shr m) by (cbv beta zeta; repeat s1); specialize (S z); rewrite K in S end. cbn [snd] in S. lia.
Qed.
Lemma numeric_takes l k s c r a q : s_rest s = c :: r -> is_value_end_char c = false -> parse_numeric l k s = (Ok a, q) -> (slen q <= slen s - 1)%Z.
Proof.
  intros R V. unfold parse_numeric. unfold bind at 1.
  destruct (scan_numeric (s_rest s) (s_line s) (s_col s) [] [] false false) as [x [[r' l'] k']] eqn:E.
  apply scan_numeric_spec in E as (con & [E _] & F); [|reflexivity|reflexivity]. cbn [fst snd] in E. intros K.
  destruct x as [x1 x2 dec|c0]; [|discriminate]. destruct F as (_ & _ & F).
  assert (D : (slen (set_stream s r' l' k') <= slen s - 1)%Z).
  { unfold slen. cbn [s_rest set_stream]. rewrite E, app_length. destruct con; [|cbn [length]; lia].
    destruct (F eq_refl) as [G|(c1 & r1 & G & V1)]; congruence. }
  match type of K with ?m ?z = _ => assert (S : shr m) by (cbv beta zeta; repeat s1); specialize (S z); rewrite K in S end. cbn [snd] in S. lia.
Qed.
Lemma vscan_takes v s x q : (exists c r, s_rest s = c :: r /\ is_value_end_char c = false) ->
  (let '(x, (r, l, k)) := scan_var (s_rest s) (s_line s) (s_col s) v in (Ok x, set_stream s r l k)) = (Ok x, q) ->
  match x with VS_bad _ => True | _ => (slen q <= slen s - 1)%Z end.
Proof.
  intros (c & r & R & V). destruct (scan_var (s_rest s) (s_line s) (s_col s) v) as [y [[r' l'] k']] eqn:E.
  apply scan_var_spec in E as (con & [E _] & F). cbn [fst snd] in E. intros K. inversion K; subst y q. unfold slen. cbn [s_rest set_stream].
  rewrite E, app_length. destruct x as [w|w|c0]; [|destruct F as (u & _ & ->)|exact I].
  - destruct F as [_ F]. destruct con; [|cbn [length]; lia]. destruct (F eq_refl) as [G|(c1 & r1 & G & V1)]; congruence.
  - rewrite app_length. cbn [length]. lia.
Qed.

Variable W : nat -> Z.
Definition cost (u : meter) : Z := (Z.of_N (m_ticks u) - sumZ W (m_reads u))%Z.
Lemma cost_add u v : cost (m_add u v) = (cost u + cost v)%Z.
Proof. unfold cost, m_add. cbn [m_ticks m_reads]. rewrite sumZ_app. lia. Qed.
Definition cb {A} (c : Mt A) (s : pstate) (a : A -> Z) (e : Z) : Prop :=
  match c s with (o, q, u) => (cost u + 5 * slen q <= 5 * slen s + match o with Ok x => a x | _ => e end)%Z end.
Lemma cb_weak {A} (c : Mt A) s a e a' e' : cb c s a e -> (forall x, a x <= a' x)%Z -> (e <= e')%Z -> cb c s a' e'.
Proof. unfold cb. intros H Ha He. destruct (c s) as [[[x|k| |] q] u]; [specialize (Ha x)|..]; lia. Qed.
Lemma cb_tick {A} (c : Mt A) s a e : cb c s (fun x => a x - 1)%Z (e - 1) -> cb (tick c) s a e.
Proof. unfold cb, tick. destruct (c s) as [[[x|k| |] q] u]; rewrite cost_add; change (cost (mkm 1 [] 0)) with 1%Z; lia. Qed.
Lemma cb_bind {A B} (c : Mt A) (f : A -> Mt B) s a e A' E : cb c s a e -> (e <= E)%Z ->
  (forall x q u, c s = (Ok x, q, u) -> cb (f x) q (fun y => A' y - a x)%Z (E - a x)) -> cb (cbind c f) s A' E.
Proof.
  unfold cb, cbind. intros H He F. destruct (c s) as [[[x|k| |] q] u]; try lia. specialize (F x q u eq_refl).
  destruct (f x q) as [[[y|k| |] q'] u']; rewrite cost_add; lia.
Qed.
Lemma cost_lift {A} (m : M A) s : shr m -> cost (snd (lift m s)) = (slen s - slen (snd (m s)))%Z.
Proof. intros H. specialize (H s). unfold lift, cost, slen in *. cbn [fst snd m_ticks m_reads sumZ]. lia. Qed.
Lemma cb_lift_bind {A B} (m : M A) (f : A -> Mt B) s A' E : shr m -> (0 <= E)%Z ->
  (forall x q, m s = (Ok x, q) -> (slen q <= slen s)%Z -> cb (f x) q (fun y => A' y + 4 * (slen s - slen q))%Z (E + 4 * (slen s - slen q))) ->
  cb (cbind (lift m) f) s A' E.
Proof.
  intros S He F. pose proof (S s) as Ss. pose proof (cost_lift m s S) as Hc. unfold cb, cbind, lift in *. cbn [snd] in Hc.
  destruct (m s) as [[x|k| |] q] eqn:Q; cbn [snd] in *; rewrite ?Hc; try lia.
  specialize (F x q eq_refl Ss). destruct (f x q) as [[[y|k| |] q'] u']; rewrite cost_add, Hc; lia.
Qed.
Lemma cb_lift {A} (m : M A) s A' E : shr m -> (0 <= E + 4 * (slen s - slen (snd (m s))))%Z ->
  (forall x q, m s = (Ok x, q) -> (slen q <= slen s)%Z -> 0 <= A' x + 4 * (slen s - slen q))%Z -> cb (lift m) s A' E.
Proof.
  intros S He F. pose proof (S s) as Ss. pose proof (cost_lift m s S) as Hc. unfold cb, lift in *. cbn [snd] in Hc.
  destruct (m s) as [[x|k| |] q] eqn:Q; cbn [snd] in *; rewrite ?Hc; try lia.
  specialize (F x q eq_refl Ss). lia.
Qed.
Lemma cb_spare {B} n (f : unit -> Mt B) s a e : cb (f tt) s a e -> cb (cbind (c_spare n) f) s a e.
Proof.
  unfold cb, cbind, c_spare. destruct (f tt s) as [[[x|k| |] q] u]; rewrite cost_add; change (cost (mkm 0 [] n)) with 0%Z; lia.
Qed.
Lemma cb_assoc {A B D} (m : Mt A) (g : A -> Mt B) (f : B -> Mt D) s a e :
  cb (cbind m (fun x => cbind (g x) f)) s a e -> cb (cbind (cbind m g) f) s a e.
Proof.
  unfold cb, cbind. destruct (m s) as [[[x|k| |] q] u]; auto. destruct (g x q) as [[[y|k| |] q'] u']; auto.
  destruct (f y q') as [[[z|k| |] q''] u'']; rewrite !cost_add; lia.
Qed.

Lemma next_some s o c q : next s = (Ok o, q) -> opt_char_eqb o (Some c) = true -> slen q = (slen s - 1)%Z.
Proof.
  intros N O. eapply next_takes; eauto. intros R. unfold next in N. rewrite R in N. inversion N; subst. discriminate.
Qed.
Lemma assert_true b s q : assert_ b s = (Ok tt, q) -> b = true /\ q = s.
Proof. unfold assert_. destruct b; intros K; inversion K; auto. Qed.

Definition stay {A} (m : M A) : Prop := forall s, s_rest (snd (m s)) = s_rest s.
Lemma stay_bind {A B} (m : M A) (f : A -> M B) : stay m -> (forall a, stay (f a)) -> stay (bind m f).
Proof. intros H F s. specialize (H s). unfold bind. destruct (m s) as [[a|e| |] q]; cbn in *; auto. rewrite F. exact H. Qed.
Lemma lookup_same a b c d e s v q : lookup_variable a b c d e s = (Ok v, q) -> s_rest q = s_rest s.
Proof.
  assert (St : stay (lookup_variable a b c d e)).
  { unfold lookup_variable. repeat match goal with
    | |- stay (bind _ _) => apply stay_bind; [|intros]
    | |- stay (if ?x then _ else _) => destruct x
    | |- stay (sentinel ?k) => let s0 := fresh in intros s0; unfold sentinel; destruct (g_sent _ _); reflexivity
    | |- stay (match ?x with _ => _ end) => destruct x
    | |- stay _ => intros ?; reflexivity
    end. }
  intros K. specialize (St s). rewrite K in St. exact St.
Qed.
Ltac fact J :=
  match type of J with
  | peek_unwrap _ = _ => let R := fresh "R" in let r := fresh "r" in apply peek_unwrap_sees in J as [-> (r & R)]
  | next_unwrap _ = _ => let R := fresh "R" in let r := fresh "r" in apply next_unwrap_takes in J as [J (r & R)]
  | peek _ = _ => let R := fresh "R" in apply peek_sees in J as [-> R]
  | ret _ _ = _ => injection J as; subst
  | fail _ _ = _ => discriminate J
  | raise _ _ = _ => discriminate J
  | panic _ = _ => discriminate J
  | nofuel _ = _ => discriminate J
  | getpos _ = _ => injection J as; subst
  | getline _ = _ => injection J as; subst
  | getfile _ = _ => injection J as; subst
  | assert_ _ ?s = (Ok ?x, _) => destruct x; apply assert_true in J as [J ->]
  | parse_str _ = _ => apply str_takes in J
  | parse_field _ _ _ = _ => apply field_takes in J
  | lookup_variable _ _ _ _ _ _ = _ => apply lookup_same in J
  | _ => idtac
  end.
Ltac shrs := first [apply shr_next|apply shr_find|apply shr_str|apply shr_numeric|apply shr_field|apply shr_unary|apply shr_binop|apply shr_token|apply shr_index|apply shr_lookup|apply shr_vscan|solve [repeat s1]].
Ltac unc := unfold c_peek_unwrap, c_next_unwrap, c_peek, c_next, c_find_char, c_getpos, c_getline, c_getfile, c_col_minus_1, c_get_globals, c_get_sh, c_panic, c_nofuel, c_parse_str,
  c_ret, c_fail, c_raise, c_assert_, c_insert_global, c_put_sh, c_check_value_end, c_new_obj, c_new_arr, c_new_tup, c_parse_numeric, c_parse_field, c_lookup_variable, c_index_by, c_include_token,
  c_unary_op_on_value, c_binary_op_on_values.
Ltac solve_lift :=
  match goal with
  | |- cb (lift ?m) ?s _ _ =>
      let S := fresh "S" in assert (S : shr m) by shrs; apply cb_lift; [exact S|specialize (S s); lia|
        let J := fresh "J" in let L := fresh "L" in intros ? ? J L; fact J; cbn [snd]; lia]
  end.
Ltac pre := repeat match goal with |- cb (cbind (c_spare _) _) _ _ _ => apply cb_spare | |- cb (cbind (cbind (c_spare _) _) _) _ _ _ => apply cb_assoc end.
Ltac b0 :=
  match goal with
  | |- cb (tick _) _ _ _ => apply cb_tick
  | |- cb (cbind (c_spare _) _) _ _ _ => apply cb_spare
  | |- cb (cbind (lift _) _) _ _ _ => apply cb_lift_bind; [shrs|lia|let J := fresh "J" in let L := fresh "L" in intros ? ? J L; fact J; cbv beta]
  | |- cb (cbind (cbind _ _) _) _ _ _ => apply cb_assoc
  | |- cb (cbind (if ?b then _ else _) _) _ _ _ => let D := fresh "D" in destruct b eqn:D
  | |- cb (cbind (match ?x with _ => _ end) _) _ _ _ => let D := fresh "D" in destruct x eqn:D
  | |- cb (if ?b then _ else _) _ _ _ => let D := fresh "D" in destruct b eqn:D
  | |- cb (match ?x with _ => _ end) _ _ _ => let D := fresh "D" in destruct x eqn:D
  | |- cb (lift _) _ _ _ => solve_lift
  end.
Ltac b1 := pre; b0.

Section Files.
Variable fs : fsys.
Variable lic : inc_ty -> str -> shared -> (outcome value * shared) * meter.
Hypothesis HL : forall ty p sh, is_file fs p = true -> (cost (snd (lic ty p sh)) <= 0)%Z.

Lemma cb_include ty p s : is_file fs p = true -> cb (ct_run_include lic ty p) s (fun _ => 0)%Z 0.
Proof.
  intros F. specialize (HL ty p (s_sh s) F). unfold cb, ct_run_include. destruct (lic ty p (s_sh s)) as [[[x|k| |] sh] u]; cbn [snd] in HL; unfold slen; cbn [s_rest set_sh]; lia.
Qed.
Lemma cb_finish ty f l k s : cb (ct_finish_include fs lic ty f l k) s (fun _ => 0)%Z 0.
Proof.
  unfold ct_finish_include. unc. cbv zeta. repeat b1.
  all: match goal with D : negb ?b = false |- _ => apply Bool.negb_false_iff in D end.
  all: eapply cb_bind; [apply cb_include; assumption|lia|intros; cbv beta; repeat b1].
Qed.
Lemma cb_low ops : forall v vals s, cb (ct_eval_low_ops v vals ops) s (fun _ => Z.of_nat (length ops)) (Z.of_nat (length ops)).
Proof.
  induction ops as [|op ops IH]; intros v vals s.
  - assert (E : ct_eval_low_ops v vals [] = lift (ret v)) by (destruct vals; reflexivity). rewrite E. cbn [length]. b1.
  - destruct vals as [|[[v2 l2] c2] vals].
    + change (ct_eval_low_ops v [] (op :: ops)) with (tick (lift (@panic value))). cbn [length]. repeat b1.
    + change (ct_eval_low_ops v ((v2, l2, c2) :: vals) (op :: ops)) with
        (tick (cbind (cbind (c_spare (levels v)) (fun _ => cbind (c_spare (levels v2)) (fun _ => lift (binary_op_on_values v v2 op l2 c2)))) (fun x => ct_eval_low_ops x vals ops))).
      cbn [length]. repeat b1. eapply cb_weak; [apply IH|intros; lia|lia].
Qed.

Definition starts_name (s : pstate) : Prop := exists c r, s_rest s = c :: r /\ is_value_end_char c = false.
Definition BD (n : nat) : Prop :=
  (forall a b c d e f s, cb (ct_parse_value fs lic n a b c d e f) s (fun _ => -1)%Z 2) /\
  (forall a b c d e s, cb (ct_parse_ops fs lic n a b c d e) s (fun p => 1 + Z.of_nat (length e) - Z.of_nat (length (snd p)))%Z 1) /\
  (forall a b c d s, cb (ct_parse_unary_op fs lic n a b c d) s (fun _ => -3)%Z 1) /\
  (forall a s, cb (ct_parse_obj fs lic n a) s (fun _ => -3)%Z 1) /\
  (forall a b c d s, cb (ct_pairs_loop fs lic n a b c d) s (fun _ => 0)%Z 2) /\
  (forall a b c d s, cb (ct_parse_field_value_pair fs lic n a b c d) s (fun _ => -3)%Z 1) /\
  (forall a b s, cb (ct_parse_arr fs lic n a b) s (fun _ => -3)%Z 1) /\
  (forall a b c d e s, cb (ct_arr_loop fs lic n a b c d e) s (fun _ => -3)%Z 3) /\
  (forall a b s, cb (ct_parse_tup fs lic n a b) s (fun _ => -3)%Z 1) /\
  (forall a b c s, cb (ct_tup_loop fs lic n a b c) s (fun _ => -3)%Z 3) /\
  (forall a b c d e s, starts_name s -> cb (ct_parse_variable fs lic n a b c d e) s (fun _ => -3)%Z 1) /\
  (forall a b s, cb (ct_parse_include fs lic n a b) s (fun _ => -3)%Z 1).
Lemma cb_nofuel {A} s (a : A -> Z) e : (0 <= e)%Z -> cb (lift nofuel) s a e.
Proof. intros H. b1. Qed.
Ltac sub H := pre; eapply cb_weak; [apply H; eauto|intros; cbn [snd]; lia|lia].
Ltac bnd H := pre; eapply cb_bind; [apply H; eauto|lia|cbv beta].
Lemma BD_all n : BD n.
Proof.
  induction n as [|n (H1&H2&H3&H4&H5&H6&H7&H8&H9&H10&H11&H12)].
  { unfold BD; repeat split; intros; apply cb_nofuel; lia. }
  pose proof cb_finish as Hf. pose proof cb_low as Hl. unfold BD; repeat split; intros.
  - rewrite ct_parse_value_S. unc. apply cb_tick. b1.
    assert (G : forall (m : Mt value), cb m s (fun _ => -3)%Z 1 ->
      cb (cbind m (fun res => if f then
        cbind (ct_parse_ops fs lic n a d e [(res, b, c)] []) (fun x => match x with (vals, ops) =>
          cbind (lift (check_value_end e)) (fun _ => match vals with [] => lift panic | (val1, _, _) :: vals' => ct_eval_low_ops val1 vals' ops end) end)
        else lift (ret res))) s (fun _ => -1 - 1 + 4 * (slen s - slen s))%Z (2 - 1 + 4 * (slen s - slen s))).
    { intros m Hm. eapply cb_bind; [exact Hm|lia|]. intros res q u _. cbv beta. destruct f; [|b1].
      bnd H2. intros [vals ops] q1 u1 _. cbn [snd length]. b1. destruct vals as [|[[v1 ?] ?] vals']; [b1|]. sub Hl. }
    apply G. clear G. repeat b1.
    + sub H4.
    + sub H7.
    + sub H9.
    + sub H12.
    + sub H3.
    + sub H3.
    + apply cb_lift; [shrs|pose proof (shr_numeric b c s); lia|]. intros v q J _. eapply numeric_takes in J; eauto; [lia|]. apply numeric_not_end; auto.
    + apply H11. eexists _, _. split; [eassumption|]. apply Bool.orb_true_iff in D7 as [D7|D7]; [eapply field_not_end; eauto|].
      apply N.eqb_eq in D7. subst. reflexivity.
  - rewrite ct_parse_ops_S. unc. apply cb_tick. b1.
    destruct x as [ch|]; [|b1]. destruct (s_rest s) as [|c0 r0] eqn:Rs; [discriminate|]. destruct (get_op ch) as [op|]; [|b1].
    apply cb_lift_bind; [shrs|lia|]. intros o qn Jn Ln. apply next_takes in Jn; [|congruence]. b1. destruct x as [c1|]; [|repeat b1].
    b1. bnd H1. intros v2 qq uu _. destruct (is_priority op).
    + destruct (pop_back d) as [[vals' [[v1 l1] k1]]|]; [|b1]. b1. sub H2.
    + eapply cb_weak; [apply H2|intros; rewrite app_length; cbn [snd length]; lia|lia].
  - rewrite ct_parse_unary_op_S. unc. apply cb_tick. apply cb_lift_bind; [shrs|lia|]. intros o q J L. b1.
    assert (J' : slen q = (slen s - 1)%Z) by (destruct d; eapply next_some; eauto). repeat b1. bnd H1. intros v2 qq uu _. b1.
  - rewrite ct_parse_obj_S. unc. repeat b1. bnd H5. intros [ps par] qq uu _. repeat b1.
  - rewrite ct_pairs_loop_S. unc. apply cb_tick. bnd H6. intros [[more ps] par] qq uu _. destruct more; [sub H5|b1].
  - rewrite ct_parse_field_value_pair_S. unc. apply cb_tick. b1. destruct (_ && _).
    { apply cb_lift_bind; [shrs|lia|]. intros o qn Jn Ln. apply next_takes in Jn; [|congruence]. b1. }
    repeat b1. all: bnd H1; intros v2 qq uu _; repeat b1.
  - rewrite ct_parse_arr_S. unc. repeat b1. bnd H8. intros [vs t] qq uu _. repeat b1.
  - rewrite ct_arr_loop_S. unc. apply cb_tick. b1. destruct x; cbn [negb]; [|repeat b1]. b1. destruct (_ =? _).
    { apply cb_lift_bind; [shrs|lia|]. intros o qn Jn Ln. apply next_takes in Jn; [|congruence]. b1. }
    repeat b1. bnd H1. intros v2 qq uu _. destruct (arr_check_step _ _ _) as [[t any']|[t1 t2]]; [sub H8|b1].
  - rewrite ct_parse_tup_S. unc. repeat b1. bnd H10. intros vs qq uu _. repeat b1.
  - rewrite ct_tup_loop_S. unc. apply cb_tick. b1. destruct x; cbn [negb]; [|repeat b1]. b1. destruct (_ =? _).
    { apply cb_lift_bind; [shrs|lia|]. intros o qn Jn Ln. apply next_takes in Jn; [|congruence]. b1. }
    repeat b1. bnd H1. intros v2 qq uu _. sub H10.
  - rewrite ct_parse_variable_S. unc. cbv zeta. apply cb_tick. b1.
    destruct (x =? c_at); [apply cb_assoc; b1; b1|b1].
    + apply cb_lift_bind; [shrs|lia|]. intros z qv Jv Lv. destruct z; repeat b1.
      all: try (bnd H1; intros iv qq uu _; b1).
      all: eapply cb_weak; [apply H11|intros; lia|lia].
      all: match goal with Q : s_rest ?q = s_rest ?q', P : Some ?ch = match s_rest ?q' with _ => _ end |- starts_name ?q =>
             destruct (s_rest q') as [|ch' rr] eqn:Rq; [discriminate|]; injection P as ->; exists ch', rr; split; [exact Q|] end.
      all: match goal with D : (_ || _) = true |- _ => apply Bool.orb_true_iff in D as [D|D]; [eapply field_not_end; eauto|apply numeric_not_end; auto] end.
    + apply cb_lift_bind; [shrs|lia|]. intros z qv Jv Lv.
      pose proof (vscan_takes _ _ _ _ H Jv) as Tv. destruct z; repeat b1.
      all: try (bnd H1; intros iv qq uu _; b1).
      all: eapply cb_weak; [apply H11|intros; lia|lia].
      all: match goal with Q : s_rest ?q = s_rest ?q', P : Some ?ch = match s_rest ?q' with _ => _ end |- starts_name ?q =>
             destruct (s_rest q') as [|ch' rr] eqn:Rq; [discriminate|]; injection P as ->; exists ch', rr; split; [exact Q|] end.
      all: match goal with D : (_ || _) = true |- _ => apply Bool.orb_true_iff in D as [D|D]; [eapply field_not_end; eauto|apply numeric_not_end; auto] end.
  - rewrite ct_parse_include_S. unc. repeat b1.
    bnd H1. intros v1 qa ua _. repeat b1.
    + bnd H1. intros v3 qb ub _. repeat b1. sub Hf.
    + sub Hf.
Qed.
Lemma cb_obj_stream n s : cb (ct_parse_obj_stream fs lic n) s (fun _ => 1)%Z 3.
Proof.
  destruct (BD_all n) as (_&_&_&_&H&_). unfold ct_parse_obj_stream. unc. repeat b1. eapply cb_bind; [apply H|lia|].
  intros [ps par] qz uz _. cbv beta. b1.
Qed.
Lemma cb_arr_stream n s : cb (ct_parse_arr_stream fs lic n) s (fun _ => 1)%Z 3.
Proof.
  assert (H : forall n vs t any s, cb (ct_arr_file_loop fs lic n vs t any) s (fun _ => 1)%Z 3).
  { clear n s. induction n as [|n IH]; intros; [apply cb_nofuel; lia|]. destruct (BD_all n) as (H&_).
    cbn. unc. apply cb_tick. b1. destruct x; cbn [negb]; [|b1]. b1. eapply cb_bind; [apply H|lia|]. intros v qq uu _. cbv beta.
    pre. destruct (arr_check_step _ _ _) as [[t' any']|[t1 t2]]; [|b1]. eapply cb_weak; [apply IH|intros; lia|lia]. }
  unfold ct_parse_arr_stream. unc. eapply cb_bind; [apply H|lia|]. intros [vs t] qz uz _. cbv beta. b1.
Qed.
Lemma cb_tup_stream n s : cb (ct_parse_tup_stream fs lic n) s (fun _ => 1)%Z 3.
Proof.
  assert (H : forall n vs s, cb (ct_tup_file_loop fs lic n vs) s (fun _ => 1)%Z 3).
  { clear n s. induction n as [|n IH]; intros; [apply cb_nofuel; lia|]. destruct (BD_all n) as (H&_).
    cbn. unc. apply cb_tick. b1. destruct x; cbn [negb]; [|b1]. b1. eapply cb_bind; [apply H|lia|]. intros v qq uu _. cbv beta.
    eapply cb_weak; [apply IH|intros; lia|lia]. }
  unfold ct_parse_tup_stream. unc. eapply cb_bind; [apply H|lia|]. intros vs qz uz _. cbv beta. b1.
Qed.
End Files.
End Bound.

(** ** The meter and the log of opened files *)
Definition op (s : pstate) : list (option str) := opens (sh_log (s_sh s)).
Definition quiet {A} (m : M A) : Prop := forall s, op (snd (m s)) = op s.
Lemma quiet_bind {A B} (m : M A) (f : A -> M B) : quiet m -> (forall a, quiet (f a)) -> quiet (bind m f).
Proof. intros H F s. specialize (H s). unfold bind. destruct (m s) as [[a|e| |] s']; cbn in *; auto. rewrite F. exact H. Qed.
Lemma quiet_scan {A} (f : str -> N -> N -> A * (str * N * N)) :
  quiet (fun s => let '(x, (r, l, k)) := f (s_rest s) (s_line s) (s_col s) in (Ok x, set_stream s r l k)).
Proof. intros s. destruct (f _ _ _) as [x [[r l] k]]. reflexivity. Qed.
Lemma quiet_sentinel k : quiet (sentinel k).
Proof. intros s. unfold sentinel. destruct (g_sent _ _); reflexivity. Qed.
Lemma quiet_next : quiet next.
Proof. intros s. unfold next. destruct (s_rest s); [reflexivity|]. destruct (adv _ _ _). reflexivity. Qed.
Lemma quiet_col : quiet col_minus_1.
Proof. intros s. unfold col_minus_1. destruct (_ =? _); reflexivity. Qed.
Lemma quiet_find : quiet find_char.
Proof. apply (quiet_scan (fun r l k => find_char_l r l k false)). Qed.
Ltac q1 :=
  match goal with
  | |- quiet (bind _ _) => apply quiet_bind; [|intros]
  | |- quiet (if ?b then _ else _) => destruct b
  | |- quiet (match ?x with _ => _ end) => destruct x
  | |- quiet (let _ := _ in _) => cbv zeta
  | |- quiet next => apply quiet_next
  | |- quiet find_char => apply quiet_find
  | |- quiet (sentinel _) => apply quiet_sentinel
  | |- quiet col_minus_1 => apply quiet_col
  | |- quiet (fun s => let '(x, q) := scan_str _ _ _ ?a ?b in _) => apply (quiet_scan (fun r l k => scan_str r l k a b))
  | |- quiet (fun s => let '(x, q) := scan_numeric _ _ _ ?a ?b ?c ?d in _) => apply (quiet_scan (fun r l k => scan_numeric r l k a b c d))
  | |- quiet (fun s => let '(x, q) := scan_field _ _ _ ?a ?b in _) => apply (quiet_scan (fun r l k => scan_field r l k a b))
  | |- quiet (fun s => let '(x, q) := scan_var _ _ _ ?a in _) => apply (quiet_scan (fun r l k => scan_var r l k a))
  | |- quiet (new_obj _ _) => unfold new_obj
  | |- quiet (new_arr _ _) => unfold new_arr
  | |- quiet (new_tup _) => unfold new_tup
  | |- quiet (unwrap _) => unfold unwrap
  | |- quiet (unwrap_o _) => unfold unwrap_o
  | |- quiet (assert_ _) => unfold assert_
  | |- quiet peek_unwrap => unfold peek_unwrap
  | |- quiet next_unwrap => unfold next_unwrap
  | |- quiet (check_value_end _) => unfold check_value_end
  | |- quiet (parse_field _ _) => unfold parse_field
  | |- quiet parse_str => unfold parse_str
  | |- quiet (parse_bigint _) => unfold parse_bigint
  | |- quiet (parse_numeric _ _) => unfold parse_numeric
  | |- quiet (unary_op_on_value _ _ _ _) => unfold unary_op_on_value
  | |- quiet (binary_op_on_values _ _ _ _ _) => unfold binary_op_on_values
  | |- quiet (include_token _ _ _) => unfold include_token
  | |- quiet (index_by _ _ _ _) => unfold index_by
  | |- quiet (lookup_variable _ _ _ _ _) => unfold lookup_variable
  | |- quiet _ => intros ?; reflexivity
  end.
Section Opened.
Context `{U : Unicode}.
Variable can : nat -> option str.
Definition lg {A} (c : Mt A) (s : pstate) : Prop :=
  match c s with (_, q, u) => op q = rev (map can (m_reads u)) ++ op s end.
Lemma lg_lift {A} (m : M A) s : quiet m -> lg (lift m) s.
Proof. intros H. specialize (H s). unfold lg, lift. destruct (m s) as [o q]. exact H. Qed.
Lemma lg_tick {A} (c : Mt A) s : lg c s -> lg (tick c) s.
Proof. unfold lg, tick. destruct (c s) as [[o q] u]. auto. Qed.
Lemma lg_bind {A B} (c : Mt A) (f : A -> Mt B) s : lg c s -> (forall x q, lg (f x) q) -> lg (cbind c f) s.
Proof.
  unfold lg, cbind. intros H F. destruct (c s) as [[[x|e| |] q] u]; auto. specialize (F x q).
  destruct (f x q) as [[o q'] u']. cbn [m_reads m_add]. rewrite F, H, map_app, rev_app_distr, app_assoc. reflexivity.
Qed.
Lemma lg_bind' {A B} (c : Mt A) (f : A -> Mt B) s : lg c s -> (forall x q u, c s = (Ok x, q, u) -> lg (f x) q) -> lg (cbind c f) s.
Proof.
  unfold lg, cbind. intros H F. destruct (c s) as [[[x|e| |] q] u]; auto. specialize (F x q u eq_refl).
  destruct (f x q) as [[o q'] u']. cbn [m_reads m_add]. rewrite F, H, map_app, rev_app_distr, app_assoc. reflexivity.
Qed.
Variable fs : fsys.
Variable lic : inc_ty -> str -> shared -> (outcome value * shared) * meter.
Hypothesis HL : forall ty p sh, match lic ty p sh with (_, sh', u) => opens (sh_log sh') = rev (map can (m_reads u)) ++ opens (sh_log sh) end.

Ltac l1 :=
  match goal with
  | |- lg (tick _) _ => apply lg_tick
  | |- lg (c_spare _) _ => reflexivity
  | |- lg (c_new_tup _) _ => unfold c_new_tup
  | |- lg (c_include_token _ _ _) _ => unfold c_include_token
  | |- lg (c_index_by _ _ _ _) _ => unfold c_index_by
  | |- lg (c_unary_op_on_value _ _ _ _) _ => unfold c_unary_op_on_value
  | |- lg (c_binary_op_on_values _ _ _ _ _) _ => unfold c_binary_op_on_values
  | |- lg (cbind _ _) _ => apply lg_bind; [|intros]
  | |- lg (if ?b then _ else _) _ => destruct b
  | |- lg (match ?x with _ => _ end) _ => destruct x
  | H : _ |- _ => apply H
  | |- lg _ _ => apply lg_lift; solve [repeat q1]
  end.
Lemma lg_include ty p s : lg (ct_run_include lic ty p) s.
Proof. specialize (HL ty p (s_sh s)). unfold lg, ct_run_include. destruct (lic ty p (s_sh s)) as [[o sh] u]. exact HL. Qed.
Lemma lg_put sh s : opens (sh_log sh) = op s -> lg (lift (put_sh sh)) s.
Proof. intros H. unfold lg, lift, put_sh. exact H. Qed.
Ltac f1 :=
  match goal with
  | |- lg (cbind (lift get_sh) _) _ => apply lg_bind'; [apply lg_lift; repeat q1|let E := fresh in intros ? ? ? E; injection E as; subst]
  | |- lg (cbind _ _) _ => apply lg_bind; [|intros]
  | |- lg (if ?b then _ else _) _ => destruct b
  | |- lg (match ?x with _ => _ end) _ => destruct x
  | |- lg (ct_run_include _ _ _) _ => apply lg_include
  | |- lg (lift _) _ => apply lg_lift; solve [repeat q1]
  end.
Lemma lg_finish ty f l k s : lg (ct_finish_include fs lic ty f l k) s.
Proof.
  unfold ct_finish_include. unfold c_getfile, c_assert_, c_fail, c_get_sh, c_put_sh, c_panic, c_ret. cbv zeta.
  repeat first [apply lg_put; reflexivity|f1].
Qed.
Lemma lg_low ops : forall v vals s, lg (ct_eval_low_ops v vals ops) s.
Proof.
  induction ops as [|op ops IH]; intros v vals s; [destruct vals; apply lg_lift; repeat q1|].
  destruct vals as [|[[v2 l2] c2] vals]; [exact (lg_tick _ _ (lg_lift (@panic value) s (fun _ => eq_refl)))|].
  change (ct_eval_low_ops v ((v2, l2, c2) :: vals) (op :: ops)) with
    (tick (cbind (cbind (c_spare (levels v)) (fun _ => cbind (c_spare (levels v2)) (fun _ => lift (binary_op_on_values v v2 op l2 c2)))) (fun x => ct_eval_low_ops x vals ops))). repeat l1.
Qed.
Definition LG (n : nat) : Prop :=
  (forall a b c d e f s, lg (ct_parse_value fs lic n a b c d e f) s) /\
  (forall a b c d e s, lg (ct_parse_ops fs lic n a b c d e) s) /\
  (forall a b c d s, lg (ct_parse_unary_op fs lic n a b c d) s) /\
  (forall a s, lg (ct_parse_obj fs lic n a) s) /\
  (forall a b c d s, lg (ct_pairs_loop fs lic n a b c d) s) /\
  (forall a b c d s, lg (ct_parse_field_value_pair fs lic n a b c d) s) /\
  (forall a b s, lg (ct_parse_arr fs lic n a b) s) /\
  (forall a b c d e s, lg (ct_arr_loop fs lic n a b c d e) s) /\
  (forall a b s, lg (ct_parse_tup fs lic n a b) s) /\
  (forall a b c s, lg (ct_tup_loop fs lic n a b c) s) /\
  (forall a b c d e s, lg (ct_parse_variable fs lic n a b c d e) s) /\
  (forall a b s, lg (ct_parse_include fs lic n a b) s).
Lemma LG_all n : LG n.
Proof.
  induction n as [|n (H1&H2&H3&H4&H5&H6&H7&H8&H9&H10&H11&H12)].
  { unfold LG; repeat split; intros; apply lg_lift; intros ?; reflexivity. }
  pose proof lg_finish as Hf. pose proof lg_low as Hl. unfold LG; repeat split; intros.
  - rewrite ct_parse_value_S. repeat l1.
  - rewrite ct_parse_ops_S. repeat l1.
  - rewrite ct_parse_unary_op_S. repeat l1.
  - rewrite ct_parse_obj_S. repeat l1.
  - rewrite ct_pairs_loop_S. repeat l1.
  - rewrite ct_parse_field_value_pair_S. repeat l1.
  - rewrite ct_parse_arr_S. repeat l1.
  - rewrite ct_arr_loop_S. repeat l1.
  - rewrite ct_parse_tup_S. repeat l1.
  - rewrite ct_tup_loop_S. repeat l1.
  - rewrite ct_parse_variable_S. cbv zeta. repeat l1.
  - rewrite ct_parse_include_S. repeat l1.
Qed.
Lemma lg_obj_stream n s : lg (ct_parse_obj_stream fs lic n) s.
Proof. destruct (LG_all n) as (_&_&_&_&H&_). unfold ct_parse_obj_stream. repeat l1. Qed.
Lemma lg_arr_stream n s : lg (ct_parse_arr_stream fs lic n) s.
Proof.
  assert (H : forall n vs t any s, lg (ct_arr_file_loop fs lic n vs t any) s).
  { clear n s. induction n as [|n IH]; intros; [apply lg_lift; intros ?; reflexivity|]. cbn. destruct (LG_all n) as (H&_). repeat l1. }
  unfold ct_parse_arr_stream. repeat l1.
Qed.
Lemma lg_tup_stream n s : lg (ct_parse_tup_stream fs lic n) s.
Proof.
  assert (H : forall n vs s, lg (ct_tup_file_loop fs lic n vs) s).
  { clear n s. induction n as [|n IH]; intros; [apply lg_lift; intros ?; reflexivity|]. cbn. destruct (LG_all n) as (H&_). repeat l1. }
  unfold ct_parse_tup_stream. repeat l1.
Qed.
End Opened.

(** ** Whole loads *)
Section Whole.
Context `{U : Unicode}.
Variable fs : fsys.
(** what file number [i] may cost *)
Definition file_size (i : nat) : nat :=
  match nth_error (fs_files fs) i with Some e => match fe_read e with inl t => length t | inr _ => 0%nat end | None => 0%nat end.
Definition Wt (i : nat) : Z := match nth_error (fs_files fs) i with Some _ => (5 * Z.of_nat (file_size i) + 4)%Z | None => 0%Z end.
Definition cn (i : nat) : option str := match nth_error (fs_files fs) i with Some e => fe_canon e | None => None end.

Lemma cb_run {A} (c : Mt A) file t sh : (forall s, cb Wt c s (fun _ => 1)%Z 3) ->
  (cost Wt (snd (ct_run_stream c file t sh)) <= 5 * Z.of_nat (length t) + 3)%Z.
Proof.
  intros H. specialize (H (mkst file t 1 1 [] sh)). unfold ct_run_stream, cb in *. destruct (c _) as [[[x|e| |] q] u]; cbn [snd];
    unfold slen in H; cbn [s_rest] in H; lia.
Qed.
Lemma opening_cost p sh : is_file fs p = true ->
  match open_file fs p sh with
  | (inl t, _) => cost Wt (opening fs p) = (- 5 * Z.of_nat (length t) - 3)%Z
  | (inr _, _) => (cost Wt (opening fs p) <= 0)%Z
  end.
Proof.
  unfold is_file, open_file, opening, cost. destruct (fs_entry fs p) as [[i e]|] eqn:E; [|discriminate]. intros _.
  assert (N : nth_error (fs_files fs) i = Some e).
  { revert E. unfold fs_entry. destruct (path_parent p); [|discriminate]. destruct (fs_resolve fs p) as [j|]; [|discriminate].
    destruct (nth_error (fs_files fs) j) eqn:F; [|discriminate]. intros K; inversion K; subst. exact F. }
  cbn [m_ticks m_reads sumZ]. unfold Wt, file_size. rewrite N. destruct (fe_read e); lia.
Qed.
Lemma load_cost k : forall ty p sh, is_file fs p = true -> (cost Wt (snd (ct_load_file fs k ty p sh)) <= 0)%Z.
Proof.
  induction k as [|k IH]; intros ty p sh F; [cbn; lia|]. cbn [ct_load_file]. pose proof (opening_cost p sh F) as O.
  destruct (open_file fs p sh) as [[t|e] sh']; [|exact O].
  assert (R : forall A (c : Mt A) (h : outcome A -> outcome value), (forall s, cb Wt c s (fun _ => 1)%Z 3) ->
    (cost Wt (snd (let '(r, u) := (let '(o, sh, u) := ct_run_stream c (Some p) t sh' in (h o, sh, u)) in (done_file fs p r, m_add (opening fs p) u))) <= 0)%Z).
  { intros A c h Hc. pose proof (cb_run c (Some p) t sh' Hc) as R. destruct (ct_run_stream c (Some p) t sh') as [[o sh2] u].
    cbn [snd] in *. rewrite cost_add. lia. }
  destruct ty; [apply R; intros; apply cb_obj_stream; intros; apply IH; assumption| |apply R; intros; apply cb_arr_stream; intros; apply IH; assumption|apply R; intros; apply cb_tup_stream; intros; apply IH; assumption].
  cbn [snd]. rewrite cost_add. change (cost Wt (mkm 0 [] 0)) with 0%Z. lia.
Qed.
Lemma str_cost g t : (cost Wt (snd (metered_str fs g t)) <= 5 * Z.of_nat (length t) + 3)%Z.
Proof. apply cb_run. intros. apply cb_obj_stream. apply load_cost. Qed.
Lemma file_cost g p : (cost Wt (snd (metered_file fs g p)) <= 1)%Z.
Proof.
  unfold metered_file. pose proof (opening_cost p (init_sh g)) as O. destruct (is_file fs p) eqn:F.
  - specialize (O eq_refl). destruct (open_file fs p (init_sh g)) as [[t|e] sh]; [|cbn [snd]; lia].
    pose proof (cb_run (ct_parse_obj_stream fs (ct_load_file fs (inc_fuel fs)) (stream_fuel t)) (Some p) t sh (fun s => cb_obj_stream Wt fs _ (load_cost _) _ s)) as R.
    destruct (ct_run_stream _ _ _ _) as [r u]. cbn [snd] in *. rewrite cost_add. lia.
  - unfold open_file, is_file, opening in *. destruct (fs_entry fs p) as [[]|]; [discriminate|]. cbn. lia.
Qed.

(** the log *)
Lemma opening_log p sh : match open_file fs p sh with (_, sh') => opens (sh_log sh') = rev (map cn (m_reads (opening fs p))) ++ opens (sh_log sh) end.
Proof.
  unfold open_file, opening. destruct (fs_entry fs p) as [[i e]|] eqn:E; [|reflexivity].
  assert (N : nth_error (fs_files fs) i = Some e).
  { revert E. unfold fs_entry. destruct (path_parent p); [|discriminate]. destruct (fs_resolve fs p) as [j|]; [|discriminate].
    destruct (nth_error (fs_files fs) j) eqn:F; [|discriminate]. intros K; inversion K; subst. exact F. }
  cbn [m_reads map rev app]. unfold cn. rewrite N. destruct (fe_read e); reflexivity.
Qed.
Lemma lg_run {A} (c : Mt A) file t sh : (forall s, lg cn c s) ->
  match ct_run_stream c file t sh with (_, sh', u) => opens (sh_log sh') = rev (map cn (m_reads u)) ++ opens (sh_log sh) end.
Proof. intros H. specialize (H (mkst file t 1 1 [] sh)). unfold ct_run_stream, lg in *. destruct (c _) as [[o q] u]. exact H. Qed.
Lemma load_lg k : forall ty p sh, match ct_load_file fs k ty p sh with (_, sh', u) => opens (sh_log sh') = rev (map cn (m_reads u)) ++ opens (sh_log sh) end.
Proof.
  induction k as [|k IH]; intros ty p sh; [reflexivity|]. cbn [ct_load_file]. pose proof (opening_log p sh) as O.
  destruct (open_file fs p sh) as [[t|e] sh']; [|exact O].
  assert (D : forall (o : outcome value) sh2 u, opens (sh_log sh2) = rev (map cn (m_reads u)) ++ opens (sh_log sh') ->
    let '(_, sh3) := done_file fs p (o, sh2) in opens (sh_log sh3) = rev (map cn (m_reads (m_add (opening fs p) u))) ++ opens (sh_log sh)).
  { intros o sh2 u K. cbn [m_add m_reads]. rewrite map_app, rev_app_distr, <- app_assoc, <- O, <- K. destruct o; reflexivity. }
  assert (R : forall A (c : Mt A) (h : outcome A -> outcome value), (forall s, lg cn c s) ->
    match (let '(r, u) := (let '(o, sh, u) := ct_run_stream c (Some p) t sh' in (h o, sh, u)) in (done_file fs p r, m_add (opening fs p) u)) with
    (_, sh2, u) => opens (sh_log sh2) = rev (map cn (m_reads u)) ++ opens (sh_log sh) end).
  { intros A c h Hc. pose proof (lg_run c (Some p) t sh' Hc) as R. destruct (ct_run_stream c (Some p) t sh') as [[o sh2] u].
    specialize (D (h o) sh2 u R). destruct (done_file fs p (h o, sh2)). exact D. }
  destruct ty; [apply R; intros; apply lg_obj_stream; auto| |apply R; intros; apply lg_arr_stream; auto|apply R; intros; apply lg_tup_stream; auto].
  exact (D (Ok (VStr t)) sh' (mkm 0 [] 0) eq_refl).
Qed.
Lemma str_lg g t r sh u : metered_str fs g t = (r, sh, u) -> opens (sh_log sh) = rev (map cn (m_reads u)).
Proof.
  intros E. pose proof (lg_run (ct_parse_obj_stream fs (ct_load_file fs (inc_fuel fs)) (stream_fuel t)) None t (init_sh g) (lg_obj_stream cn fs _ (load_lg _) _)) as R.
  unfold metered_str in E. rewrite E in R. cbn in R. rewrite R. apply app_nil_r.
Qed.
Lemma file_lg g p r sh u : metered_file fs g p = (r, sh, u) -> opens (sh_log sh) = rev (map cn (m_reads u)).
Proof.
  unfold metered_file. pose proof (opening_log p (init_sh g)) as O. destruct (open_file fs p (init_sh g)) as [[t|e] sh1].
  - pose proof (lg_run (ct_parse_obj_stream fs (ct_load_file fs (inc_fuel fs)) (stream_fuel t)) (Some p) t sh1 (lg_obj_stream cn fs _ (load_lg _) _)) as R.
    destruct (ct_run_stream _ _ _ _) as [[o sh2] u2]. intros K. inversion K; subst. rewrite R, O. cbn [m_add m_reads].
    rewrite map_app, rev_app_distr, app_nil_r. reflexivity.
  - intros K. inversion K; subst. rewrite O. apply app_nil_r.
Qed.
End Whole.
