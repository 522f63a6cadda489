(** * IdCount: a load draws at most one id per step (proofs for C79). *)
From Verif Require Export CountProofs.
Open Scope Z_scope.

(** How many of the four keyword Objs there are. *)
Definition kw1 (o : option N) : Z := match o with Some _ => 1 | None => 0 end.
Definition made_keywords (g : gstate) : Z := kw1 (g_obj g) + kw1 (g_str g) + kw1 (g_arr g) + kw1 (g_tup g).
(** The ids that this thread drew for containers: not those of other threads, not those of keyword Objs. *)
Definition own (g : gstate) : Z := Z.of_N (g_next g) - Z.of_nat (length (g_taken g)) - made_keywords g.
Lemma own_draw g : own (g_draw g) = own g + 1.
Proof. unfold own, made_keywords, g_draw. cbn [g_next g_obj g_str g_arr g_tup g_taken]. lia. Qed.
Lemma own_new_sent g k : g_sent g k = None -> own (g_set_sent (g_draw g) k (g_next g)) = own g.
Proof. unfold own, made_keywords. destruct k; cbn [g_sent g_set_sent g_draw g_next g_obj g_str g_arr g_tup g_taken]; intros ->; cbn [kw1]; lia. Qed.
Lemma own_keyword g k : own (g_keyword g k) = own g.
Proof. unfold g_keyword. destruct (g_sent g k) eqn:E; [reflexivity|]. apply own_new_sent. exact E. Qed.
Lemma own_act g a : own (g_act g a) = own g.
Proof. destruct a; cbn [g_act]; [|apply own_keyword]. unfold own, made_keywords. cbn [g_take g_draw g_next g_obj g_str g_arr g_tup g_taken length]. lia. Qed.
Lemma own_acts l : forall g, own (fold_left g_act l g) = own g.
Proof. induction l as [|a l IH]; intros g; [reflexivity|]. cbn [fold_left]. rewrite IH. apply own_act. Qed.
Lemma own_interfere g : own (interfere g) = own g.
Proof. unfold interfere. destruct (g_others g) as [|b bs]; [reflexivity|]. rewrite own_acts. reflexivity. Qed.
Lemma own_bump g : own (bump g) = own g + 1.
Proof. unfold bump. rewrite own_interfere. apply own_draw. Qed.

Definition ow (s : pstate) : Z := own (sh_g (s_sh s)).
(** *** leaves *)
Definition still {A} (m : M A) : Prop := forall s, ow (snd (m s)) = ow s.
Lemma still_bind {A B} (m : M A) (f : A -> M B) : still m -> (forall a, still (f a)) -> still (bind m f).
Proof. intros H F s. specialize (H s). unfold bind. destruct (m s) as [[a|e| |] s']; cbn in *; auto. rewrite F. exact H. Qed.
Lemma still_scan {A} (f : str -> N -> N -> A * (str * N * N)) :
  still (fun s => let '(x, (r, l, k)) := f (s_rest s) (s_line s) (s_col s) in (Ok x, set_stream s r l k)).
Proof. intros s. destruct (f _ _ _) as [x [[r l] k]]. reflexivity. Qed.
Lemma still_sentinel k : still (sentinel k).
Proof.
  intros s. unfold sentinel. destruct (g_sent _ _) eqn:E; [reflexivity|]. unfold ow. cbn [snd s_sh set_sh sh_g set_g].
  unfold g_new_sent. rewrite own_interfere. apply own_new_sent. exact E.
Qed.
Lemma still_next : still next.
Proof. intros s. unfold next. destruct (s_rest s); [reflexivity|]. destruct (adv _ _ _). reflexivity. Qed.
Lemma still_col : still col_minus_1.
Proof. intros s. unfold col_minus_1. destruct (_ =? _)%N; reflexivity. Qed.
Lemma still_find : still find_char.
Proof. apply (still_scan (fun r l k => find_char_l r l k false)). Qed.
Ltac t1 :=
  match goal with
  | |- still (bind _ _) => apply still_bind; [|intros]
  | |- still (if ?b then _ else _) => destruct b
  | |- still (match ?x with _ => _ end) => destruct x
  | |- still (let _ := _ in _) => cbv zeta
  | |- still next => apply still_next
  | |- still find_char => apply still_find
  | |- still (sentinel _) => apply still_sentinel
  | |- still col_minus_1 => apply still_col
  | |- still (fun s => let '(x, q) := scan_str _ _ _ ?a ?b in _) => apply (still_scan (fun r l k => scan_str r l k a b))
  | |- still (fun s => let '(x, q) := scan_numeric _ _ _ ?a ?b ?c ?d in _) => apply (still_scan (fun r l k => scan_numeric r l k a b c d))
  | |- still (fun s => let '(x, q) := scan_field _ _ _ ?a ?b in _) => apply (still_scan (fun r l k => scan_field r l k a b))
  | |- still (fun s => let '(x, q) := scan_var _ _ _ ?a in _) => apply (still_scan (fun r l k => scan_var r l k a))
  | |- still (unwrap _) => unfold unwrap
  | |- still (unwrap_o _) => unfold unwrap_o
  | |- still (assert_ _) => unfold assert_
  | |- still peek_unwrap => unfold peek_unwrap
  | |- still next_unwrap => unfold next_unwrap
  | |- still (check_value_end _) => unfold check_value_end
  | |- still (parse_field _ _) => unfold parse_field
  | |- still parse_str => unfold parse_str
  | |- still (parse_bigint _) => unfold parse_bigint
  | |- still (parse_numeric _ _) => unfold parse_numeric
  | |- still (unary_op_on_value _ _ _ _) => unfold unary_op_on_value
  | |- still (include_token _ _ _) => unfold include_token
  | |- still (index_by _ _ _ _) => unfold index_by
  | |- still (lookup_variable _ _ _ _ _) => unfold lookup_variable
  | |- still _ => intros ?; reflexivity
  end.
(** at most one id *)
Definition one {A} (m : M A) : Prop := forall s, ow (snd (m s)) <= ow s + 1.
Lemma one_still {A} (m : M A) : still m -> one m.
Proof. intros H s. rewrite H. lia. Qed.
Lemma one_after {A B} (m : M A) (f : A -> M B) : still m -> (forall a, one (f a)) -> one (bind m f).
Proof. intros H F s. specialize (H s). unfold bind. destruct (m s) as [[a|e| |] s']; cbn [snd] in *; try lia. specialize (F a s'). lia. Qed.
Lemma one_before {A B} (m : M A) (f : A -> M B) : one m -> (forall a, still (f a)) -> one (bind m f).
Proof. intros H F s. specialize (H s). unfold bind. destruct (m s) as [[a|e| |] s']; cbn [snd] in *; try lia. rewrite F. lia. Qed.
Lemma one_gen : one gen_id.
Proof. intros s. unfold gen_id, ow. cbn [snd s_sh set_sh sh_g set_g]. rewrite own_bump. lia. Qed.
Lemma one_obj ps par : one (new_obj ps par). Proof. apply one_before; [apply one_gen|]. intros; repeat t1. Qed.
Lemma one_arr vs t : one (new_arr vs t). Proof. apply one_before; [apply one_gen|]. intros; repeat t1. Qed.
Lemma one_tup vs : one (new_tup vs). Proof. apply one_before; [apply one_gen|]. intros; repeat t1. Qed.
Section I.
Context `{U : Unicode}.
Ltac o1 :=
  match goal with
  | |- one (if ?b then _ else _) => destruct b
  | |- one (bind (new_arr _ _) _) => apply one_before; [apply one_arr|intros; repeat t1]
  | |- one _ => apply one_still; solve [repeat t1]
  | |- one (match ?x with _ => _ end) => destruct x
  | |- one (bind _ _) => apply one_after; [solve [repeat t1]|intros]
  end.
Lemma one_binop a b c d e : one (binary_op_on_values a b c d e).
Proof. unfold binary_op_on_values. cbv zeta. repeat o1. Qed.

(** *** metered computations: [k] ids more than steps *)
Definition idb {A} (k : Z) (c : Mt A) (s : pstate) : Prop :=
  match c s with (_, q, u) => ow q <= ow s + Z.of_N (m_ticks u) + k end.
Lemma idb_lift {A} k (m : M A) s : 0 <= k -> still m -> idb k (lift m) s.
Proof. intros K H. specialize (H s). unfold idb, lift. destruct (m s) as [o q]. cbn [snd m_ticks] in *. lia. Qed.
Lemma idb_one {A} k (m : M A) s : 1 <= k -> one m -> idb k (lift m) s.
Proof. intros K H. specialize (H s). unfold idb, lift. destruct (m s) as [o q]. cbn [snd m_ticks] in *. lia. Qed.
Lemma idb_tick {A} k (c : Mt A) s : idb (k + 1) c s -> idb k (tick c) s.
Proof. unfold idb, tick. destruct (c s) as [[o q] u]. cbn [m_ticks m_add]. lia. Qed.
Lemma idb_bind {A B} k j (c : Mt A) (f : A -> Mt B) s : j <= k -> idb j c s -> (forall x q, idb (k - j) (f x) q) -> idb k (cbind c f) s.
Proof.
  unfold idb, cbind. intros J H F. destruct (c s) as [[[x|e| |] q] u]; try lia. specialize (F x q).
  destruct (f x q) as [[o q'] u']. cbn [m_ticks m_add]. lia.
Qed.
Lemma idb_bind' {A B} k j (c : Mt A) (f : A -> Mt B) s : j <= k -> idb j c s -> (forall x q u, c s = (Ok x, q, u) -> idb (k - j) (f x) q) -> idb k (cbind c f) s.
Proof.
  unfold idb, cbind. intros J H F. destruct (c s) as [[[x|e| |] q] u]; try lia. specialize (F x q u eq_refl).
  destruct (f x q) as [[o q'] u']. cbn [m_ticks m_add]. lia.
Qed.
Lemma idb_weak {A} j k (c : Mt A) s : j <= k -> idb j c s -> idb k c s.
Proof. unfold idb. destruct (c s) as [[o q] u]. lia. Qed.
Lemma idb_spare k n s : 0 <= k -> idb k (c_spare n) s.
Proof. unfold idb, c_spare. cbn. lia. Qed.
Variable fs : fsys.
Variable lic : inc_ty -> str -> shared -> (outcome value * shared) * meter.
Hypothesis HL : forall ty p sh, match lic ty p sh with (_, sh', u) => own (sh_g sh') <= own (sh_g sh) + Z.of_N (m_ticks u) end.
Lemma binop_idb a b c d e s : idb 1 (c_binary_op_on_values a b c d e) s.
Proof.
  unfold c_binary_op_on_values. apply (idb_bind 1 0); [lia|apply idb_spare; lia|intros]. apply (idb_bind _ 0); [lia|apply idb_spare; lia|intros]. apply idb_one; [lia|apply one_binop].
Qed.
Lemma new_tup_idb vs s : idb 1 (c_new_tup vs) s.
Proof. unfold c_new_tup. apply (idb_bind 1 0); [lia|apply idb_spare; lia|intros]. apply idb_one; [lia|apply one_tup]. Qed.
Ltac l1 :=
  match goal with
  | |- idb _ (tick _) _ => apply idb_tick
  | |- idb _ (c_spare _) _ => apply idb_spare; lia
  | |- idb _ (c_binary_op_on_values _ _ _ _ _) _ => eapply idb_weak; [|apply binop_idb]; lia
  | |- idb _ (c_new_tup _) _ => eapply idb_weak; [|apply new_tup_idb]; lia
  | |- idb _ (c_new_obj _ _) _ => apply idb_one; [lia|apply one_obj]
  | |- idb _ (c_new_arr _ _) _ => apply idb_one; [lia|apply one_arr]
  | |- idb _ (c_include_token _ _ _) _ => unfold c_include_token
  | |- idb _ (c_index_by _ _ _ _) _ => unfold c_index_by
  | |- idb _ (c_unary_op_on_value _ _ _ _) _ => unfold c_unary_op_on_value
  | |- idb ?k (cbind (c_binary_op_on_values _ _ _ _ _) _) _ => apply (idb_bind k 1); [lia|apply binop_idb|intros]
  | |- idb ?k (cbind (c_new_tup _) _) _ => apply (idb_bind k 1); [lia|apply new_tup_idb|intros]
  | |- idb ?k (cbind (c_new_obj _ _) _) _ => apply (idb_bind k 1); [lia|apply idb_one; [lia|apply one_obj]|intros]
  | |- idb ?k (cbind (c_new_arr _ _) _) _ => apply (idb_bind k 1); [lia|apply idb_one; [lia|apply one_arr]|intros]
  | |- idb ?k (cbind _ _) _ => apply (idb_bind k 0); [lia| |intros]
  | |- idb _ (if ?b then _ else _) _ => destruct b
  | |- idb _ (match ?x with _ => _ end) _ => destruct x
  | H : _ |- idb _ _ _ => eapply idb_weak; [|apply H]; lia
  | |- idb _ _ _ => apply idb_lift; [lia|solve [repeat t1]]
  end.
Lemma idb_include ty p s : idb 0 (ct_run_include lic ty p) s.
Proof. specialize (HL ty p (s_sh s)). unfold idb, ct_run_include. destruct (lic ty p (s_sh s)) as [[o sh] u]. unfold ow. cbn [s_sh set_sh]. lia. Qed.
Lemma idb_put k sh s : 0 <= k -> own (sh_g sh) = ow s -> idb k (lift (put_sh sh)) s.
Proof. intros K H. unfold idb, lift, put_sh. unfold ow at 1. cbn [s_sh set_sh m_ticks]. lia. Qed.
Ltac f1 :=
  match goal with
  | |- idb ?k (cbind (lift get_sh) _) _ => apply (idb_bind' k 0); [lia|apply idb_lift; [lia|repeat t1]|let E := fresh in intros ? ? ? E; injection E as; subst]
  | |- idb ?k (cbind _ _) _ => apply (idb_bind k 0); [lia| |intros]
  | |- idb _ (if ?b then _ else _) _ => destruct b
  | |- idb _ (match ?x with _ => _ end) _ => destruct x
  | |- idb _ (ct_run_include _ _ _) _ => eapply idb_weak; [|apply idb_include]; lia
  | |- idb _ (lift _) _ => apply idb_lift; [lia|solve [repeat t1]]
  end.
Lemma idb_finish ty f l k s : idb 0 (ct_finish_include fs lic ty f l k) s.
Proof.
  unfold ct_finish_include. unfold c_getfile, c_assert_, c_fail, c_get_sh, c_put_sh, c_panic, c_ret. cbv zeta.
  repeat first [apply idb_put; [lia|reflexivity]|f1].
Qed.
Lemma idb_low ops : forall v vals s, idb 0 (ct_eval_low_ops v vals ops) s.
Proof.
  induction ops as [|op ops IH]; intros v vals s; [destruct vals; apply idb_lift; [lia|repeat t1|lia|repeat t1]|].
  destruct vals as [|[[v2 l2] c2] vals].
  - change (ct_eval_low_ops v [] (op :: ops)) with (tick (lift (@panic value))). apply idb_tick, idb_lift; [lia|repeat t1].
  - change (ct_eval_low_ops v ((v2, l2, c2) :: vals) (op :: ops)) with
      (tick (cbind (c_binary_op_on_values v v2 op l2 c2) (fun x => ct_eval_low_ops x vals ops))). repeat l1.
Qed.
Definition ID (n : nat) : Prop :=
  (forall a b c d e f s, idb 0 (ct_parse_value fs lic n a b c d e f) s) /\
  (forall a b c d e s, idb 0 (ct_parse_ops fs lic n a b c d e) s) /\
  (forall a b c d s, idb 0 (ct_parse_unary_op fs lic n a b c d) s) /\
  (forall a s, idb 0 (ct_parse_obj fs lic n a) s) /\
  (forall a b c d s, idb 0 (ct_pairs_loop fs lic n a b c d) s) /\
  (forall a b c d s, idb 0 (ct_parse_field_value_pair fs lic n a b c d) s) /\
  (forall a b s, idb 0 (ct_parse_arr fs lic n a b) s) /\
  (forall a b c d e s, idb 0 (ct_arr_loop fs lic n a b c d e) s) /\
  (forall a b s, idb 0 (ct_parse_tup fs lic n a b) s) /\
  (forall a b c s, idb 0 (ct_tup_loop fs lic n a b c) s) /\
  (forall a b c d e s, idb 0 (ct_parse_variable fs lic n a b c d e) s) /\
  (forall a b s, idb 0 (ct_parse_include fs lic n a b) s).
Lemma ID_all n : ID n.
Proof.
  induction n as [|n (H1&H2&H3&H4&H5&H6&H7&H8&H9&H10&H11&H12)].
  { unfold ID; repeat split; intros; (apply idb_lift; [lia|intros ?; reflexivity]). }
  pose proof idb_finish as Hf. pose proof idb_low as Hl. unfold ID; repeat split; intros.
  - rewrite ct_parse_value_S. repeat l1.
  - rewrite ct_parse_ops_S. repeat l1.
  - rewrite ct_parse_unary_op_S. repeat l1.
  - rewrite ct_parse_obj_S. repeat l1.
  - rewrite ct_pairs_loop_S. repeat l1.
  - rewrite ct_parse_field_value_pair_S. repeat l1.
  - rewrite ct_parse_arr_S. repeat l1.
  - rewrite ct_arr_loop_S. repeat l1.
  - rewrite ct_parse_tup_S. repeat l1.
  - rewrite ct_tup_loop_S. repeat l1.
  - rewrite ct_parse_variable_S. cbv zeta. repeat l1.
  - rewrite ct_parse_include_S. repeat l1.
Qed.
Lemma idb_obj_stream n s : idb 0 (ct_parse_obj_stream fs lic n) s.
Proof. destruct (ID_all n) as (_&_&_&_&H&_). unfold ct_parse_obj_stream. repeat l1. Qed.
Lemma idb_arr_stream n s : idb 1 (ct_parse_arr_stream fs lic n) s.
Proof.
  assert (H : forall n vs t any s, idb 0 (ct_arr_file_loop fs lic n vs t any) s).
  { clear n s. induction n as [|n IH]; intros; [apply idb_lift; [lia|intros ?; reflexivity]|]. cbn [ct_arr_file_loop]. destruct (ID_all n) as (H&_). repeat l1. }
  unfold ct_parse_arr_stream. repeat l1.
Qed.
Lemma idb_tup_stream n s : idb 1 (ct_parse_tup_stream fs lic n) s.
Proof.
  assert (H : forall n vs s, idb 0 (ct_tup_file_loop fs lic n vs) s).
  { clear n s. induction n as [|n IH]; intros; [apply idb_lift; [lia|intros ?; reflexivity]|]. cbn [ct_tup_file_loop]. destruct (ID_all n) as (H&_). repeat l1. }
  unfold ct_parse_tup_stream. repeat l1.
Qed.
End I.
(** *** Whole loads *)
Section Whole.
Context `{U : Unicode}.
Variable fs : fsys.
Definition wid {A} (k : Z) (sh : shared) (r : (outcome A * shared) * meter) : Prop :=
  match r with (_, sh', u) => own (sh_g sh') <= own (sh_g sh) + Z.of_N (m_ticks u) + k end.
Lemma idb_run {A} k (c : Mt A) file t sh : (forall s, idb k c s) -> wid k sh (ct_run_stream c file t sh).
Proof. intros H. specialize (H (mkst file t 1 1 [] sh)). unfold wid, ct_run_stream, idb in *. destruct (c _) as [[o q] u]. exact H. Qed.
Lemma open_own p sh : match open_file fs p sh with (_, sh') => own (sh_g sh') = own (sh_g sh) end.
Proof. unfold open_file. destruct (fs_entry fs p) as [[i e]|]; [|reflexivity]. destruct (fe_read e); reflexivity. Qed.
Lemma load_ids n : forall ty p sh, wid 0 sh (ct_load_file fs n ty p sh).
Proof.
  induction n as [|n IH]; intros ty p sh; [unfold wid; cbn; lia|]. cbn [ct_load_file]. pose proof (open_own p sh) as O.
  destruct (open_file fs p sh) as [[t|e] sh']; [|unfold wid, opening; cbn [m_ticks]; lia].
  assert (HL : forall ty p sh, match ct_load_file fs n ty p sh with (_, sh', u) => own (sh_g sh') <= own (sh_g sh) + Z.of_N (m_ticks u) end).
  { intros ty' p' sh2. specialize (IH ty' p' sh2). unfold wid in IH. destruct (ct_load_file fs n ty' p' sh2) as [[o sh3] u]. lia. }
  assert (R : forall A (c : Mt A) (h : outcome A -> outcome value), (forall s, idb 1 c s) ->
    wid 0 sh (let '(r, u) := (let '(o, sh, u) := ct_run_stream c (Some p) t sh' in (h o, sh, u)) in (done_file fs p r, m_add (opening fs p) u))).
  { intros A c h Hc. pose proof (idb_run 1 c (Some p) t sh' Hc) as R. unfold wid in R. destruct (ct_run_stream c (Some p) t sh') as [[o sh2] u].
    unfold wid. destruct (h o); cbn [done_file]; cbn [m_add m_ticks opening sh_g log_ev]; unfold opening; cbn [m_ticks]; lia. }
  destruct ty.
  - apply R. intros s. eapply idb_weak; [|apply idb_obj_stream; exact HL]. lia.
  - unfold wid. cbn [done_file]. cbn [m_add m_ticks opening sh_g log_ev]. unfold opening. cbn [m_ticks]. lia.
  - apply R. intros s. apply idb_arr_stream. exact HL.
  - apply R. intros s. apply idb_tup_stream. exact HL.
Qed.
Lemma HLn n ty p sh : match ct_load_file fs n ty p sh with (_, sh', u) => own (sh_g sh') <= own (sh_g sh) + Z.of_N (m_ticks u) end.
Proof. pose proof (load_ids n ty p sh) as IH. unfold wid in IH. destruct (ct_load_file fs n ty p sh) as [[o sh3] u]. lia. Qed.
Lemma str_ids g t : wid 0 (init_sh g) (metered_str fs g t).
Proof. apply idb_run. intros s. apply idb_obj_stream. apply HLn. Qed.
Lemma file_ids g p : wid 0 (init_sh g) (metered_file fs g p).
Proof.
  unfold metered_file. pose proof (open_own p (init_sh g)) as O. destruct (open_file fs p (init_sh g)) as [[t|e] sh]; [|unfold wid, opening; cbn [m_ticks]; lia].
  pose proof (idb_run 0 (ct_parse_obj_stream fs (ct_load_file fs (inc_fuel fs)) (stream_fuel t)) (Some p) t sh (fun s => idb_obj_stream fs _ (HLn _) _ s)) as R.
  unfold wid in R. destruct (ct_run_stream _ _ _ _) as [[o sh2] u]. unfold wid. cbn [m_add m_ticks]. unfold opening. cbn [m_ticks]. lia.
Qed.
End Whole.
