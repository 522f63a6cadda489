(** * LevelsBound: the types met in a load and the types in its result. *)
From Verif Require Export LevelsProofs.
From Coq Require String.
Import String.StringSyntax.
Open Scope N_scope.

Fixpoint sumN (W : nat -> N) (l : list nat) : N := match l with [] => 0 | i :: l => W i + sumN W l end.
Lemma sumN_app W a b : sumN W (a ++ b) = sumN W a + sumN W b.
Proof. induction a as [|i a IH]; cbn [app sumN]; lia. Qed.

Section B.
Context `{U : Unicode}.
(** [up]: from the text to the meter: no type has more levels than there were opening brackets, and one for each file.
    Otherwise: from the meter to the values: no value has more than one level more than the tallest type on the meter. *)
Variable up : bool.
Variable W : nat -> N.
Definition tot (u : meter) : N := sumN W (m_reads u).
Definition top (K j : N) (s q : pstate) (u : meter) : N :=
  if up then K + j + (brk s - brk q) + tot u else N.max K (m_tall u + 1).
Definition x : N := if up then 0 else 1.
Definition ub {A} (c : Mt A) (s : pstate) (K j : N) (P : N -> A -> Prop) : Prop := env K s ->
  match c s with (o, q, u) =>
    brk q <= brk s /\ (up = true -> m_tall u <= top K j s q u) /\
    match o with Ok a => exists K', K <= K' /\ K' <= top K j s q u /\ env K' q /\ P K' a | _ => True end
  end.
Lemma tot_add u v : tot (m_add u v) = tot u + tot v.
Proof. unfold tot, m_add. cbn [m_reads]. apply sumN_app. Qed.
Lemma ub_weak {A} (c : Mt A) s K j (P Q : N -> A -> Prop) : ub c s K j P -> (forall K' a, K <= K' -> P K' a -> Q K' a) -> ub c s K j Q.
Proof.
  unfold ub. intros H I E. specialize (H E). destruct (c s) as [[[a|e| |] q] u]; auto. destruct H as (H1 & H2 & K' & H3 & H4 & H5 & H6). eauto 10.
Qed.
Lemma ub_slack {A} (c : Mt A) s K j (P : N -> A -> Prop) : ub c s K 0 P -> ub c s K j P.
Proof.
  unfold ub, top. intros H E. specialize (H E). destruct (c s) as [[[a|e| |] q] u]; destruct H as (H1 & H2 & H3); split; auto; split; try (intros D; specialize (H2 D); destruct up; lia); auto.
  destruct H3 as (K' & H3 & H4 & H5 & H6). exists K'. repeat split; auto; try apply H5. destruct up; lia.
Qed.
Lemma ub_tick {A} (c : Mt A) s K j (P : N -> A -> Prop) : ub c s K j P -> ub (tick c) s K j P.
Proof.
  unfold ub, tick, top. intros H E. specialize (H E). destruct (c s) as [[[a|e| |] q] u]; cbn [m_tall m_add]; rewrite tot_add; change (tot (mkm 1 [] 0)) with 0;
    destruct H as (H1 & H2 & H3); split; auto; split; try (intros D; specialize (H2 D); destruct up; lia); auto.
  destruct H3 as (K' & H3 & H4 & H5 & H6). exists K'. repeat split; auto; try apply H5. destruct up; lia.
Qed.
Lemma ub_bind {A B} (c : Mt A) (f : A -> Mt B) s K j P Q : ub c s K 0 P ->
  (forall a q K', K <= K' -> P K' a -> env K' q -> ub (f a) q K' j Q) -> ub (cbind c f) s K j Q.
Proof.
  unfold ub, cbind, top. intros H F E. specialize (H E). destruct (c s) as [[[a|e| |] q] u]; destruct H as (H1 & H2 & H3).
  2-4: split; auto; split; auto; intros D; specialize (H2 D); destruct up; lia.
  destruct H3 as (K' & H3 & H4 & H5 & H6). specialize (F a q K' H3 H6 H5 H5).
  destruct (f a q) as [[[b|e| |] q'] u']; destruct F as (F1 & F2 & F3); cbn [m_tall m_add]; rewrite tot_add; (split; [lia|]);
    (split; [intros D; specialize (H2 D); specialize (F2 D); destruct up; lia|]); auto.
  destruct F3 as (K2 & F3 & F4 & F5 & F6). exists K2. repeat split; auto; try apply F5; [lia|destruct up; lia].
Qed.
Lemma ub_lift_bind {A B} (m : M A) (f : A -> Mt B) s K j Q : calm m ->
  (forall a q, m s = (Ok a, q) -> env K s -> env K q -> ub (f a) q K j Q) -> ub (cbind (lift m) f) s K j Q.
Proof.
  intros C F E. pose proof (calm_env m K s C E) as E'. pose proof (calm_brk m s C) as L. unfold cbind, lift.
  destruct (m s) as [[a|e| |] q] eqn:Q1; cbn [snd] in *.
  2-4: split; auto; split; auto; cbn [m_tall]; lia.
  specialize (F a q eq_refl E E' E'). destruct (f a q) as [[[b|e| |] q'] u']; destruct F as (F1 & F2 & F3); (split; [lia|]);
    unfold top in *; cbn [m_tall m_add]; rewrite tot_add; unfold tot at 1; cbn [m_reads sumN];
    (split; [intros D; specialize (F2 D); destruct up; lia|]); auto.
  destruct F3 as (K2 & F3 & F4 & F5 & F6). exists K2. repeat split; auto; try apply F5. unfold tot at 1. cbn [m_reads sumN]. destruct up; lia.
Qed.
Definition open_ch (c : char) : bool := (c =? c_lbrack) || (c =? c_lparen).
Lemma ub_next_bind {B} (f : char -> Mt B) s K j Q :
  (forall a q, env K q -> ub (f a) q K (j + if open_ch a then 1 else 0) Q) -> ub (cbind (lift next_unwrap) f) s K j Q.
Proof.
  intros F E. assert (C : calm next_unwrap) by calms. pose proof (calm_env next_unwrap K s C E) as E'. unfold cbind, lift.
  destruct (next_unwrap s) as [[a|e| |] q] eqn:Q1; cbn [snd] in *.
  2-4: pose proof (calm_brk next_unwrap s C) as L; rewrite Q1 in L; cbn [snd] in L; split; auto; split; auto; cbn [m_tall]; lia.
  assert (L : brk s = (if open_ch a then 1 else 0) + brk q).
  { unfold next_unwrap, bind, next in Q1. unfold brk. destruct (s_rest s) as [|c r]; [discriminate|]. destruct (adv _ _ _). inversion Q1; subst. apply brackets_cons. }
  specialize (F a q E' E'). destruct (f a q) as [[[b|e| |] q'] u']; destruct F as (F1 & F2 & F3); (split; [lia|]);
    unfold top in *; cbn [m_tall m_add]; rewrite tot_add; unfold tot at 1; cbn [m_reads sumN];
    (split; [intros D; specialize (F2 D); destruct up; lia|]); auto.
  destruct F3 as (K2 & F3 & F4 & F5 & F6). exists K2. repeat split; auto; try apply F5. unfold tot at 1. cbn [m_reads sumN]. destruct up; lia.
Qed.
Lemma ub_lift_up {A} (m : M A) s K j (P : N -> A -> Prop) : calm m ->
  (forall a q, m s = (Ok a, q) -> env K s -> P (if up then K + j else N.max K 1) a) -> ub (lift m) s K j P.
Proof.
  intros C F E. pose proof (calm_env m K s C E) as E'. pose proof (calm_brk m s C) as L. unfold lift, top.
  destruct (m s) as [[a|e| |] q] eqn:Q1; cbn [snd] in *; (split; [exact L|]); (split; [cbn [m_tall]; lia|]); auto.
  specialize (F a q eq_refl E). exists (if up then K + j else N.max K 1). split; [destruct up; lia|]. split; [destruct up; cbn [m_tall]; lia|].
  split; auto. eapply env_le; [|exact E']. destruct up; lia.
Qed.
Lemma ub_lift {A} (m : M A) s K j (P : N -> A -> Prop) : calm m ->
  (forall a q, m s = (Ok a, q) -> env K s -> P K a) -> ub (lift m) s K j P.
Proof.
  intros C F E. pose proof (calm_env m K s C E) as E'. pose proof (calm_brk m s C) as L. unfold lift, top.
  destruct (m s) as [[a|e| |] q] eqn:Q1; cbn [snd] in *; (split; [exact L|]); (split; [cbn [m_tall]; lia|]); auto.
  specialize (F a q eq_refl E). exists K. split; [lia|]. split; [destruct up; cbn [m_tall]; lia|]. auto.
Qed.
Lemma ub_last {A B} (m : M A) (h : A -> B) s K j (P : N -> B -> Prop) : calm m ->
  (forall a q, m s = (Ok a, q) -> env K s -> P (if up then K + j else N.max K 1) (h a)) -> ub (cbind (lift m) (fun a => lift (ret (h a)))) s K j P.
Proof.
  intros C F E. assert (H : ub (lift (let* a := m in ret (h a))) s K j P).
  { apply ub_lift_up; [apply calm_bind; [exact C|intros; calms]|]. unfold bind, ret. intros b q. destruct (m s) as [[a|e| |] q'] eqn:Q; try discriminate.
    intros J E'. inversion J; subst. eauto. }
  specialize (H E). revert H. unfold cbind, lift, bind, ret, top, m_add, tot. destruct (m s) as [[a|e| |] q]; cbn [snd m_tall m_reads app]; auto.
Qed.
Lemma ub_spare {B} n (f : unit -> Mt B) s K j Q : n <= K ->
  (forall K', K <= K' -> n + x <= K' -> env K' s -> ub (f tt) s K' j Q) -> ub (cbind (c_spare n) f) s K j Q.
Proof.
  intros L F. unfold ub, cbind, c_spare, top. intros E.
  specialize (F (if up then K else N.max K (n + 1))). assert (L1 : K <= (if up then K else N.max K (n + 1))) by (destruct up; lia).
  specialize (F L1). assert (L2 : n + x <= (if up then K else N.max K (n + 1))) by (unfold x; destruct up; lia).
  pose proof (env_le _ _ _ L1 E) as E1. specialize (F L2 E1 E1). unfold top in F.
  destruct (f tt s) as [[[b|e| |] q'] u']; destruct F as (F1 & F2 & F3); cbn [m_tall m_add]; rewrite tot_add; change (tot (mkm 0 [] n)) with 0; (split; [lia|]);
    (split; [intros D; specialize (F2 D); destruct up; [lia|discriminate]|]); auto.
  destruct F3 as (K2 & F3 & F4 & F5 & F6). exists K2. repeat split; auto; try apply F5; [|destruct up]; lia.
Qed.
Lemma ub_assoc {A B D} (m : Mt A) (g : A -> Mt B) (f : B -> Mt D) s K j P :
  ub (cbind m (fun x => cbind (g x) f)) s K j P -> ub (cbind (cbind m g) f) s K j P.
Proof.
  unfold ub, cbind, top. intros H E. specialize (H E). destruct (m s) as [[[a|k| |] q] u]; auto. destruct (g a q) as [[[y|k| |] q'] u']; auto.
  destruct (f y q') as [[[z|k| |] q''] u'']; cbn [m_tall m_add] in *; rewrite !tot_add in *; rewrite !N.add_assoc, ?N.max_assoc in *; auto.
Qed.
Lemma ub_put sh s K j : flatp K (sh_vals sh) -> ub (lift (put_sh sh)) s K j (fun _ _ => True).
Proof.
  intros H [E1 E2]. unfold lift, put_sh. cbn [snd]. unfold brk. cbn [s_rest set_sh]. split; [lia|]. split; [cbn; lia|].
  exists K. unfold top. repeat split; auto; try lia. destruct up; cbn [m_tall]; lia.
Qed.
Lemma ub_insert f v s K j : flat K v -> ub (lift (insert_global f v)) s K j (fun _ _ => True).
Proof.
  intros H [E1 E2]. unfold lift, insert_global. cbn [snd]. unfold brk. cbn [s_rest set_globals]. split; [lia|]. split; [cbn; lia|].
  exists K. unfold top. split; [lia|]. split; [destruct up; cbn [m_tall]; lia|]. split; auto. split; [|exact E2]. constructor; auto.
Qed.

Lemma flats_snoc K l v : flats K l -> flat K v -> flats K (l ++ [v]).
Proof. intros. apply Forall_app. split; [assumption|]. constructor; [assumption|constructor]. Qed.
Lemma flatp_snoc K l f v : flatp K l -> flat K v -> flatp K (l ++ [(f, v)]).
Proof. intros. apply Forall_app. split; [assumption|]. constructor; [assumption|constructor]. Qed.
(** ** The parser *)
Ltac unc := unfold c_peek_unwrap, c_next_unwrap, c_peek, c_next, c_find_char, c_getpos, c_getline, c_getfile, c_col_minus_1, c_get_globals, c_get_sh, c_panic, c_nofuel, c_parse_str,
  c_ret, c_fail, c_raise, c_assert_, c_insert_global, c_put_sh, c_check_value_end, c_new_obj, c_new_arr, c_new_tup, c_parse_numeric, c_parse_field, c_lookup_variable, c_index_by, c_include_token,
  c_unary_op_on_value, c_binary_op_on_values.
Ltac raise1 := match goal with
  | H : flat _ ?v |- flat _ ?v => eapply flat_le; [|exact H]; lia
  | H : flats _ ?v |- flats _ ?v => eapply flats_le; [|exact H]; lia
  | H : flatp _ ?v |- flatp _ ?v => eapply flatp_le; [|exact H]; lia
  | H : flato _ ?v |- flato _ ?v => eapply flato_le; [|exact H]; lia
  | |- flats _ (_ ++ [_]) => apply flats_snoc
  | |- flatp _ (_ ++ [_]) => apply flatp_snoc
  | |- flats _ [] => constructor
  | |- flatp _ [] => constructor
  | |- flato _ None => let H := fresh in intros ? H; discriminate H
  | |- levels _ <= _ => eapply N.le_trans; [apply flat_levels; eassumption|lia]
  | |- levels_all _ <= _ => eapply N.le_trans; [apply flats_levels; eassumption|lia]
  end.
Ltac fact J :=
  match type of J with
  | ret _ _ = _ => injection J as; subst
  | fail _ _ = _ => discriminate J
  | raise _ _ = _ => discriminate J
  | panic _ = _ => discriminate J
  | nofuel _ = _ => discriminate J
  | getpos _ = _ => injection J as; subst
  | getfile _ = _ => injection J as; subst
  | get_sh _ = _ => injection J as; subst
  | assert_ _ ?s = (Ok ?x, _) => destruct x; apply assert_true in J as [J ->]
  | _ => idtac
  end.
Ltac u0 :=
  match goal with
  | |- ub (tick _) _ _ _ _ => apply ub_tick
  | |- ub (cbind (c_spare _) _) _ _ _ _ => apply ub_spare; [repeat raise1|let L := fresh "L" in let L' := fresh "L'" in intros ? L L' ?; cbv beta]
  | |- ub (cbind (lift next_unwrap) _) _ _ _ _ => apply ub_next_bind; intros ? ? ?; cbv beta
  | |- ub (cbind (lift _) _) _ _ _ _ => apply ub_lift_bind; [calms|let J := fresh "J" in intros ? ? J ? ?; fact J; cbv beta]
  | |- ub (cbind (cbind _ _) _) _ _ _ _ => apply ub_assoc
  | |- ub (cbind (if ?b then _ else _) _) _ _ _ _ => let D := fresh "D" in destruct b eqn:D
  | |- ub (cbind (match ?x with _ => _ end) _) _ _ _ _ => let D := fresh "D" in destruct x eqn:D
  | |- ub (if ?b then _ else _) _ _ _ _ => let D := fresh "D" in destruct b eqn:D
  | |- ub (match ?x with _ => _ end) _ _ _ _ => let D := fresh "D" in destruct x eqn:D
  | |- ub (lift _) _ _ _ _ => apply ub_lift; [calms|let J := fresh "J" in intros ? ? J ?; fact J]
  end.
Ltac u1 := u0.
Ltac us := repeat (u1; try solve [auto|repeat raise1]).

Section Files.
Variable fs : fsys.
Variable lic : inc_ty -> str -> shared -> (outcome value * shared) * meter.
Definition loads (ty : inc_ty) (p : str) (sh : shared) (K : N) : Prop := flatp K (sh_vals sh) ->
  match lic ty p sh with (o, sh', u) =>
    (up = true -> m_tall u <= K + tot u) /\
    match o with Ok v => exists K', K <= K' /\ K' <= (if up then K + tot u else N.max K (m_tall u + 1)) /\ flatp K' (sh_vals sh') /\ flat K' v | _ => True end
  end.
Hypothesis HL : forall ty p sh K, canon fs p <> None -> loads ty p sh K.
Lemma ub_include ty p s K : canon fs p <> None -> ub (ct_run_include lic ty p) s K 0 flat.
Proof.
  intros F [E1 E2]. specialize (HL ty p (s_sh s) K F E2). unfold ct_run_include, top. destruct (lic ty p (s_sh s)) as [[o sh] u].
  destruct HL as [H1 H2]. split; [unfold brk; cbn [s_rest set_sh]; lia|]. split; [intros D; specialize (H1 D); rewrite D; lia|].
  destruct o as [v|e| |]; auto. destruct H2 as (K' & L1 & L2 & V & F'). exists K'. split; auto. split; [destruct up; lia|].
  split; auto. split; auto. cbn [s_globals set_sh]. eapply flatp_le; eauto.
Qed.
Lemma flatp_cons K f v l : flat K v -> flatp K l -> flatp K ((f, v) :: l).
Proof. intros. constructor; auto. Qed.
Ltac vals := cbn [log_ev sh_vals]; match goal with E : env _ ?s |- flatp _ (sh_vals (s_sh ?s)) => eapply flatp_le; [|exact (proj2 E)]; lia end.
Ltac f1 :=
  match goal with
  | |- ub (cbind (lift (put_sh _)) _) _ _ _ _ => eapply ub_bind; [apply ub_put; first [vals|cbn [sh_vals]; apply flatp_cons; [raise1|vals]]|intros ? ? ? ? _ ?; cbv beta]
  | |- ub (cbind (ct_run_include _ _ _) _) _ _ _ _ => eapply ub_bind; [apply ub_include; congruence|intros ? ? ? ? ? ?; cbv beta]
  end.
Lemma ub_finish ty f l k s K j : ub (ct_finish_include fs lic ty f l k) s K j flat.
Proof.
  apply ub_slack. unfold ct_finish_include. unc. cbv zeta. repeat (us; try f1).
  all: match goal with D : assoc _ (sh_vals (s_sh ?q)) = Some ?v, E : env ?K ?q |- flat _ ?v => eapply (flat_le K); [lia|]; eapply flatp_assoc; [|exact D]; apply E end.
Qed.
Definition flatv (K : N) (vals : list (value * N * N)) : Prop := Forall (fun p => flat K (fst (fst p))) vals.
Lemma flatv_le K K' v : K <= K' -> flatv K v -> flatv K' v.
Proof. intros L. apply Forall_impl. intros a. apply flat_le; auto. Qed.
Lemma ub_binop v w op l k s K j : flat K v -> flat K w -> ub (c_binary_op_on_values v w op l k) s K j flat.
Proof.
  intros Hv Hw. unc. us. match goal with J : binary_op_on_values _ _ _ _ _ _ = _ |- flat ?K0 _ =>
    eapply (gives_binary v w op l k K0); [raise1|raise1|exact J] end.
Qed.
Lemma ub_low ops : forall v vals s K j, flat K v -> flatv K vals -> ub (ct_eval_low_ops v vals ops) s K j flat.
Proof.
  induction ops as [|op ops IH]; intros v vals s K j Hv Hs.
  - assert (E : ct_eval_low_ops v vals [] = lift (ret v)) by (destruct vals; reflexivity). rewrite E. us.
  - destruct vals as [|[[v2 l2] c2] vals].
    + change (ct_eval_low_ops v [] (op :: ops)) with (tick (lift (@panic value))). us.
    + inversion Hs; subst. cbn [fst] in *.
      change (ct_eval_low_ops v ((v2, l2, c2) :: vals) (op :: ops)) with
        (tick (cbind (c_binary_op_on_values v v2 op l2 c2) (fun x => ct_eval_low_ops x vals ops))).
      apply ub_tick. eapply ub_bind; [apply ub_binop; assumption|]. intros. apply IH; auto. eapply flatv_le; eauto.
Qed.

Definition UB (n : nat) : Prop :=
  (forall ps l k d br first s K j, flatp K ps -> ub (ct_parse_value fs lic n ps l k d br first) s K j flat) /\
  (forall ps d br vals ops s K j, flatp K ps -> flatv K vals -> ub (ct_parse_ops fs lic n ps d br vals ops) s K j (fun K r => flatv K (fst r))) /\
  (forall ps d br o s K j, flatp K ps -> ub (ct_parse_unary_op fs lic n ps d br o) s K j flat) /\
  (forall d s K j, ub (ct_parse_obj fs lic n d) s K j flat) /\
  (forall ps par d br s K j, flatp K ps -> flato K par -> ub (ct_pairs_loop fs lic n ps par d br) s K j (fun K r => flatp K (fst r) /\ flato K (snd r))) /\
  (forall ps par d br s K j, flatp K ps -> flato K par -> ub (ct_parse_field_value_pair fs lic n ps par d br) s K j (fun K r => flatp K (snd (fst r)) /\ flato K (snd r))) /\
  (forall ps d s K j, flatp K ps -> ub (ct_parse_arr fs lic n ps d) s K j flat) /\
  (forall ps d vs t any s K j, flatp K ps -> flats K vs -> nested t + x <= K \/ nested t = 0 -> ub (ct_arr_loop fs lic n ps d vs t any) s K j (fun K r => flats K (fst r) /\ (nested (snd r) + x <= K \/ nested (snd r) = 0))) /\
  (forall ps d s K j, flatp K ps -> ub (ct_parse_tup fs lic n ps d) s K j flat) /\
  (forall ps d vs s K j, flatp K ps -> flats K vs -> ub (ct_tup_loop fs lic n ps d vs) s K j flats) /\
  (forall ps l k d br s K j, flatp K ps -> ub (ct_parse_variable fs lic n ps l k d br) s K j flat) /\
  (forall ps d s K j, flatp K ps -> ub (ct_parse_include fs lic n ps d) s K j flat).
Lemma pop_back_last {A} (l : list A) r y : pop_back l = Some (r, y) -> l = r ++ [y].
Proof.
  unfold pop_back. destruct (rev l) as [|z m] eqn:E; [discriminate|]. intros Q. inversion Q; subst.
  rewrite <- (rev_involutive l), E. reflexivity.
Qed.
Lemma obj_flat K o ps par s q : flatp K ps -> flato K par -> new_obj ps par s = (Ok o, q) -> flat K (VObj o).
Proof. intros H1 H2 E. apply gives_obj in E as (i & ->). apply flat_obj; assumption. Qed.
Lemma UB_all n : UB n.
Proof.
  induction n as [|n (H1&H2&H3&H4&H5&H6&H7&H8&H9&H10&H11&H12)].
  { unfold UB; repeat match goal with |- _ /\ _ => split end; intros; apply ub_lift; try calms; intros ? ? J; discriminate J. }
  pose proof ub_finish as Hf. pose proof ub_low as Hl. pose proof ub_binop as Hb. unfold UB; repeat match goal with |- _ /\ _ => split end; intros.
  - rewrite ct_parse_value_S. unc. apply ub_tick. u1.
    eapply ub_bind with (P := flat).
    { us; try (apply H4; assumption); try (apply H7; assumption); try (apply H9; assumption); try (apply H12; assumption); try (apply H3; assumption); try (apply H11; assumption).
      - eapply gives_str; eauto.
      - eapply gives_numeric; eauto. }
    intros v q1 K1 L1 F1 E1. destruct first; [|us].
    eapply ub_bind; [apply H2; [raise1|constructor; [exact F1|constructor]]|]. intros [vals ops] q2 K2 L2 F2 E2. cbn [fst] in F2. u1.
    destruct vals as [|[[v1 ?] ?] vals']; [us|]. inversion F2; subst. apply Hl; auto.
  - rewrite ct_parse_ops_S. unfold c_peek, c_next, c_getline, c_getpos, c_fail, c_panic, c_ret. us.
    eapply ub_bind; [apply H1; assumption|]. intros v q5 K1 L1 F1 E1. us.
    + match goal with P : pop_back _ = _ |- _ => apply pop_back_last in P; subst vals end.
      match goal with V : flatv _ (_ ++ _) |- _ => apply (flatv_le _ K1) in V; [|lia]; apply Forall_app in V as [V1 V2]; inversion V2 as [|? ? V3]; subst; cbn [fst] in V3 end.
      eapply ub_bind; [apply Hb; assumption|]. intros r q6 K2 L2 F2 E2. apply H2; [raise1|].
      apply Forall_app. split; [eapply flatv_le; [|exact V1]; lia|]. constructor; [exact F2|constructor].
    + apply H2; [raise1|]. apply Forall_app. split; [eapply flatv_le; [|eassumption]; lia|]. constructor; [exact F1|constructor].
  - rewrite ct_parse_unary_op_S. unc. us. all: eapply ub_bind; [apply H1; assumption|]; intros v q1 K1 L1 F1 E1; us.
    all: eapply gives_unary; [|eassumption]; raise1.
  - rewrite ct_parse_obj_S. unc. us. all: eapply ub_bind; [apply H5; repeat raise1|]; intros [ps par] q1 K1 L1 [F1 F2] E1; us.
    all: eapply obj_flat; [| |eassumption]; assumption.
  - rewrite ct_pairs_loop_S. unc. apply ub_tick. eapply ub_bind; [apply H6; assumption|]; intros [[more ps'] par'] q1 K1 L1 [F1 F2] E1.
    destruct more; [apply H5; auto|us].
  - rewrite ct_parse_field_value_pair_S. unc. us.
    all: eapply ub_bind; [apply H1; assumption|]; intros v q8 K1 L1 F1 E1.
    all: us; try (match goal with |- ub (cbind (lift (insert_global _ _)) _) _ _ _ _ => eapply ub_bind; [apply ub_insert; assumption|intros ? ? ? ? _ ?; cbv beta] end; us).
    all: cbn [fst snd]; split; repeat raise1; cbn [snd]; repeat raise1.
    all: match goal with G : get_obj ?v = OOk ?o |- _ => destruct v; try discriminate G; injection G as -> end.
    all: let E := fresh in intros ? E; injection E as <-; raise1.
  - rewrite ct_parse_arr_S. unc. us. match goal with J : (?a =? 91) = true |- _ => apply N.eqb_eq in J; subst end. change (open_ch 91) with true. cbv iota.
    eapply ub_bind; [apply H8; [assumption|constructor|right; reflexivity]|]. intros [vs t] q1 K1 L1 [F1 F2] E1. cbn [fst snd] in *.
    apply ub_last; [calms|]. intros a q2 J E2. apply gives_arr in J as (i & ->).
    apply flat_arr; [eapply flats_le; [|exact F1]; destruct up; lia|]. unfold x in F2. destruct up; lia.
  - rewrite ct_arr_loop_S. unc. us. eapply ub_bind; [apply H1; assumption|]; intros v q8 K1 L1 F1 E1. us.
    apply H8; [raise1|repeat raise1|]. match goal with S : arr_check_step _ _ _ = _ |- _ => apply step_nested in S end.
    unfold levels in *. lia.
  - rewrite ct_parse_tup_S. unc. us. match goal with J : (?a =? 40) = true |- _ => apply N.eqb_eq in J; subst end. change (open_ch 40) with true. cbv iota.
    eapply ub_bind; [apply H10; [assumption|constructor]|]. intros vs q1 K1 L1 F1 E1. u1. u1.
    apply ub_last; [calms|]. intros a q2 J E2. apply gives_tup in J as (i & ->).
    apply flat_tup; [eapply flats_le; [|exact F1]; destruct up; lia|]. unfold x in *. destruct up; lia.
  - rewrite ct_tup_loop_S. unc. us. eapply ub_bind; [apply H1; assumption|]; intros v q8 K1 L1 F1 E1.
    apply H10; repeat raise1.
  - rewrite ct_parse_variable_S. unc. cbv zeta. us.
    all: match goal with J : lookup_variable _ _ _ _ _ ?s0 = (Ok ?v, _), E : env ?K0 ?s0 |- _ => assert (F0 : flat K0 v) by (eapply gives_lookup; [|exact E|exact J]; assumption) end.
    all: try assumption.
    all: try (eapply ub_bind; [apply H1; assumption|]; intros iv q8 K1 L1 F1 E1; us).
    all: try (eapply gives_index_arr; [|eassumption]; raise1).
    all: try (eapply gives_index_tup; [|eassumption]; raise1).
    all: try (apply H11; apply flat_fields; assumption).
  - rewrite ct_parse_include_S. unc. us. all: eapply ub_bind; [apply H1; assumption|]; intros v q8 K1 L1 F1 E1; us.
    all: try (eapply ub_bind; [apply H1; raise1|]; intros v2 q9 K2 L2 F2 E2; us). all: try apply Hf.
Qed.
Lemma ub_obj_stream n s K j : ub (ct_parse_obj_stream fs lic n) s K j (fun K o => flat K (VObj o)).
Proof.
  destruct (UB_all n) as (_&_&_&_&H&_). unfold ct_parse_obj_stream. unc. us.
  - eapply obj_flat; [| |eassumption]; repeat raise1.
  - eapply ub_bind; [apply H; repeat raise1|]. intros [ps par] q1 K1 L1 [F1 F2] E1. us. eapply obj_flat; [| |eassumption]; assumption.
Qed.
Lemma ub_arr_stream n s K j : ub (ct_parse_arr_stream fs lic n) s K (j + 1) (fun K a => flat K (VArr a)).
Proof.
  assert (H : forall n vs t any s K j, flats K vs -> nested t + x <= K \/ nested t = 0 -> ub (ct_arr_file_loop fs lic n vs t any) s K j
    (fun K r => flats K (fst r) /\ (nested (snd r) + x <= K \/ nested (snd r) = 0))).
  { clear n s K j. induction n as [|n IH]; intros; [apply ub_lift; try calms; intros ? ? J; discriminate J|]. destruct (UB_all n) as (H1&_).
    rewrite ct_arr_file_loop_S. unc. us. eapply ub_bind; [apply H1; repeat raise1|]; intros v q8 K1 L1 F1 E1. us.
    apply IH; [repeat raise1|]. match goal with S : arr_check_step _ _ _ = _ |- _ => apply step_nested in S end. unfold levels in *. lia. }
  unfold ct_parse_arr_stream. unc. eapply ub_bind; [apply H; [constructor|right; reflexivity]|]. intros [vs t] q1 K1 L1 [F1 F2] E1. cbn [fst snd] in *.
  apply ub_lift_up; [calms|]. intros a q2 J E2. apply gives_arr in J as (i & ->).
  apply flat_arr; [eapply flats_le; [|exact F1]; destruct up; lia|]. unfold x in F2. destruct up; lia.
Qed.
Lemma ub_tup_stream n s K j : ub (ct_parse_tup_stream fs lic n) s K (j + 1) (fun K a => flat K (VTup a)).
Proof.
  assert (H : forall n vs s K j, flats K vs -> ub (ct_tup_file_loop fs lic n vs) s K j flats).
  { clear n s K j. induction n as [|n IH]; intros; [apply ub_lift; try calms; intros ? ? J; discriminate J|]. destruct (UB_all n) as (H1&_).
    rewrite ct_tup_file_loop_S. unc. us. eapply ub_bind; [apply H1; repeat raise1|]; intros v q8 K1 L1 F1 E1.
    apply IH; repeat raise1. }
  unfold ct_parse_tup_stream. unc. eapply ub_bind; [apply H; constructor|]. intros vs q1 K1 L1 F1 E1.
  apply ub_spare; [repeat raise1|]. intros K2 L2 L3 E2.
  apply ub_lift_up; [calms|]. intros a q2 J E3. apply gives_tup in J as (i & ->).
  apply flat_tup; [eapply flats_le; [|exact F1]; destruct up; lia|]. unfold x in L3. destruct up; lia.
Qed.
End Files.
End B.

(** ** Whole loads *)
Section Whole.
Context `{U : Unicode}.
Variable fs : fsys.
Variable up : bool.
(** opening brackets in file number [i], and one *)
Definition file_levels (i : nat) : N :=
  match nth_error (fs_files fs) i with Some e => match fe_read e with inl t => brackets t + 1 | inr _ => 0 end | None => 0 end.
Lemma ub_run {A} (c : Mt A) file t sh K j (P : N -> A -> Prop) : flatp K (sh_vals sh) ->
  (forall s, ub up file_levels c s K j P) ->
  match ct_run_stream c file t sh with (o, sh', u) =>
    (up = true -> m_tall u <= K + j + brackets t + tot file_levels u) /\
    match o with Ok a => exists K', K <= K' /\ K' <= (if up then K + j + brackets t + tot file_levels u else N.max K (m_tall u + 1)) /\ flatp K' (sh_vals sh') /\ P K' a | _ => True end
  end.
Proof.
  intros V H. unfold ct_run_stream. specialize (H (mkst file t 1 1 [] sh)). unfold ub in H.
  assert (E : env K (mkst file t 1 1 [] sh)) by (split; [constructor|exact V]). specialize (H E).
  destruct (c (mkst file t 1 1 [] sh)) as [[o q] u]. destruct H as (H1 & H2 & H3). unfold top in *. unfold brk at 1 in H2. unfold brk at 1 in H3. cbn [s_rest] in *.
  split; [intros D; specialize (H2 D); rewrite D in H2; lia|]. destruct o as [a|e| |]; auto.
  destruct H3 as (K' & L1 & L2 & [_ E2] & Q). exists K'. repeat split; auto. destruct up; lia.
Qed.
Lemma opening_tot p sh : match open_file fs p sh with
  | (inl t, sh') => tot file_levels (opening fs p) = brackets t + 1 /\ sh_vals sh' = sh_vals sh
  | (inr _, _) => True
  end.
Proof.
  unfold open_file, opening, tot. destruct (fs_entry fs p) as [[i e]|] eqn:E; [|exact I].
  assert (N : nth_error (fs_files fs) i = Some e).
  { revert E. unfold fs_entry. destruct (path_parent p); [|discriminate]. destruct (fs_resolve fs p) as [j|]; [|discriminate].
    destruct (nth_error (fs_files fs) j) eqn:F; [|discriminate]. intros K; inversion K; subst. exact F. }
  destruct (fe_read e) eqn:R; [|exact I]. cbn [m_reads sumN]. unfold file_levels. rewrite N, R. split; [lia|reflexivity].
Qed.
Lemma load_ub k : forall ty p sh K, loads up file_levels (ct_load_file fs k) ty p sh K.
Proof.
  induction k as [|k IH]; intros ty p sh K V; [split; [cbn; lia|exact I]|]. cbn [ct_load_file]. pose proof (opening_tot p sh) as O.
  destruct (open_file fs p sh) as [[t|e] sh']; [|split; [cbn; lia|exact I]]. destruct O as [O Ov]. rewrite <- Ov in V.
  assert (D : forall (o : outcome value) sh2 u,
    (up = true -> m_tall u <= K + 1 + brackets t + tot file_levels u) /\
    match o with Ok a => exists K', K <= K' /\ K' <= (if up then K + 1 + brackets t + tot file_levels u else N.max K (m_tall u + 1)) /\ flatp K' (sh_vals sh2) /\ flat K' a | _ => True end ->
    match (done_file fs p (o, sh2), m_add (opening fs p) u) with (o, sh3, u) => (up = true -> m_tall u <= K + tot file_levels u) /\
    match o with Ok a => exists K', K <= K' /\ K' <= (if up then K + tot file_levels u else N.max K (m_tall u + 1)) /\ flatp K' (sh_vals sh3) /\ flat K' a | _ => True end end).
  { intros o sh2 u [Q1 Q2]. destruct (done_file fs p (o, sh2)) as [o' sh3] eqn:Df.
    assert (Df' : o' = o /\ sh_vals sh3 = sh_vals sh2) by (unfold done_file in Df; destruct o; inversion Df; subst; auto). destruct Df' as [-> Dv].
    rewrite tot_add, O. cbn [m_tall m_add opening]. split; [intros U1; specialize (Q1 U1); lia|]. destruct o as [a|e| |]; auto.
    destruct Q2 as (K' & L1 & L2 & V' & F'). exists K'. rewrite Dv. repeat split; auto. destruct up; lia. }
  assert (R : forall A (c : Mt A) (h : A -> value), (forall s, ub up file_levels c s K 1 (fun K a => flat K (h a))) ->
    match (let '(r, u) := (let '(o, sh, u) := ct_run_stream c (Some p) t sh' in (omap h o, sh, u)) in (done_file fs p r, m_add (opening fs p) u)) with
    (o, sh3, u) => (up = true -> m_tall u <= K + tot file_levels u) /\
    match o with Ok a => exists K', K <= K' /\ K' <= (if up then K + tot file_levels u else N.max K (m_tall u + 1)) /\ flatp K' (sh_vals sh3) /\ flat K' a | _ => True end end).
  { intros A c h Hc. pose proof (ub_run c (Some p) t sh' K 1 _ V Hc) as R. destruct (ct_run_stream c (Some p) t sh') as [[o sh2] u].
    apply D. destruct R as [R1 R2]. split; [exact R1|]. destruct o as [a|e| |]; cbn [omap]; auto. }
  destruct ty.
  - apply R. intros. apply ub_obj_stream. intros; apply IH.
  - apply (D (Ok (VStr t)) sh' (mkm 0 [] 0)). split; [cbn; lia|]. exists K. split; [lia|]. split; [destruct up; lia|]. split; auto. apply flat_scalar. exact I.
  - apply R. intros. apply (ub_arr_stream up file_levels fs _ (fun ty p sh K _ => IH ty p sh K) _ _ _ 0).
  - apply R. intros. apply (ub_tup_stream up file_levels fs _ (fun ty p sh K _ => IH ty p sh K) _ _ _ 0).
Qed.
Lemma str_ub g t : match metered_str fs g t with (o, sh, u) =>
    (up = true -> m_tall u <= brackets t + tot file_levels u) /\
    match o with Ok a => flat (if up then brackets t + tot file_levels u else m_tall u + 1) (VObj a) | _ => True end
  end.
Proof.
  unfold metered_str.
  pose proof (ub_run (ct_parse_obj_stream fs (ct_load_file fs (inc_fuel fs)) (stream_fuel t)) None t (init_sh g) 0 0 (fun K o => flat K (VObj o)) ltac:(constructor)
     (fun s => ub_obj_stream up file_levels fs _ (fun ty p sh K _ => load_ub _ ty p sh K) _ s 0 0)) as R.
  destruct (ct_run_stream _ _ _ _) as [[o sh] u]. destruct R as [R1 R2]. split; [intros D; specialize (R1 D); lia|].
  destruct o as [a|e| |]; auto. destruct R2 as (K' & _ & L & _ & F). eapply flat_le; [|exact F]. destruct up; lia.
Qed.
Lemma str_ub_no_files g t : (forall p, canon fs p = None) -> m_tall (snd (metered_str fs g t)) <= brackets t.
Proof.
  intros C. unfold metered_str, ct_run_stream.
  assert (L : forall ty p sh K, canon fs p <> None -> loads true (fun _ => 0) (ct_load_file fs (inc_fuel fs)) ty p sh K) by (intros ? p ? ? N; destruct (N (C p))).
  pose proof (ub_obj_stream true (fun _ => 0) fs _ L (stream_fuel t) (mkst None t 1 1 [] (init_sh g)) 0 0) as R.
  unfold ub in R. destruct (ct_parse_obj_stream fs _ _ _) as [[o q] u]. cbn [snd].
  destruct R as (_ & R & _); [split; constructor|]. specialize (R eq_refl). unfold top, brk in R. cbn [s_rest] in R.
  replace (tot (fun _ => 0) u) with 0 in R; [lia|]. unfold tot. induction (m_reads u); cbn [sumN]; lia.
Qed.
Lemma file_ub g p : match metered_file fs g p with (o, sh, u) =>
    (up = true -> m_tall u <= tot file_levels u) /\
    match o with Ok a => flat (if up then tot file_levels u else m_tall u + 1) (VObj a) | _ => True end
  end.
Proof.
  unfold metered_file. pose proof (opening_tot p (init_sh g)) as O.
  destruct (open_file fs p (init_sh g)) as [[t|e] sh1]; [|split; [cbn; lia|exact I]]. destruct O as [O Ov].
  pose proof (ub_run (ct_parse_obj_stream fs (ct_load_file fs (inc_fuel fs)) (stream_fuel t)) (Some p) t sh1 0 0 (fun K o => flat K (VObj o)) ltac:(rewrite Ov; constructor)
     (fun s => ub_obj_stream up file_levels fs _ (fun ty p sh K _ => load_ub _ ty p sh K) _ s 0 0)) as R.
  destruct (ct_run_stream _ _ _ _) as [[o sh] u]. destruct R as [R1 R2]. rewrite tot_add, O. cbn [m_tall m_add opening].
  split; [intros D; specialize (R1 D); lia|].
  destruct o as [a|e| |]; auto. destruct R2 as (K' & _ & L & _ & F). eapply flat_le; [|exact F]. destruct up; lia.
Qed.
End Whole.
