(** * AgreeLeaf: numbers, operators, names, indices, include keywords. *)
From Verif Require Export AgreeBase.
From Coq Require Import Qfield.
From Coq Require String.
Import String.StringSyntax.
Open Scope N_scope.

(** ** Decimal values *)
Lemma dec_fold s : forall a, fold_left (fun a c => a * 10 + (c - 48)) s a =
  a * 10 ^ N.of_nat (length s) + dec_val s.
Proof.
  induction s as [|c s IH]; intros a; unfold dec_val; cbn [fold_left length].
  - cbn. lia.
  - rewrite IH, (IH (0 * 10 + _)). rewrite Nat2N.inj_succ, N.pow_succ_r'. lia.
Qed.
Lemma dec_val_app a b : dec_val (a ++ b) = dec_val a * 10 ^ N.of_nat (length b) + dec_val b.
Proof. unfold dec_val at 1. rewrite fold_left_app. fold (dec_val a). apply dec_fold. Qed.
Lemma dec_val_zeros n : dec_val (repeat 48 n) = 0.
Proof. induction n; auto. Qed.
Lemma drop_zeros_split l : exists n, l = repeat 48 n ++ drop_zeros l.
Proof.
  induction l as [|c l [n IH]]; [exists O; auto|]. cbn [drop_zeros].
  destruct (N.eqb_spec c 48) as [->|_].
  - exists (S n). cbn. f_equal. exact IH.
  - exists O. auto.
Qed.
Lemma rev_repeat {A} (x : A) n : rev (repeat x n) = repeat x n.
Proof.
  induction n; auto. cbn. rewrite IHn. clear. induction n; auto. cbn. f_equal; auto.
Qed.
Lemma trim_split l : exists n, l = trim_end_zeros l ++ repeat 48 n.
Proof.
  destruct (drop_zeros_split (rev l)) as [n H]. exists n. unfold trim_end_zeros.
  rewrite <- (rev_repeat 48 n), <- rev_app_distr, <- H, rev_involutive. auto.
Qed.

Lemma pow10_Z n : exists p, (10 ^ Z.of_nat n)%Z = Zpos p.
Proof.
  destruct (10 ^ Z.of_nat n)%Z eqn:E; eauto; assert (0 < 10 ^ Z.of_nat n)%Z by (apply Z.pow_pos_nonneg; lia); lia.
Qed.

Lemma frac_agree s1 s2 : exists q,
  frac_from_whole_and_dec (Z.of_N (dec_val s1))
    (Z.of_N (dec_val (trim_end_zeros s2))) (length (trim_end_zeros s2)) = Some q /\
  q = Qred (Qmake (Z.of_N (dec_val (s1 ++ s2))) (Z.to_pos (10 ^ Z.of_nat (length s2)))).
Proof.
  destruct (trim_split s2) as [n E]. set (t := trim_end_zeros s2) in *.
  unfold frac_from_whole_and_dec. destruct (pow10_Z (length t)) as [p Hp]. rewrite Hp.
  cbn [ratio_new]. eexists. split; [reflexivity|]. apply Qred_complete.
  rewrite !Qred_correct. rewrite E at 1 2. rewrite app_length, repeat_length.
  rewrite !dec_val_app, dec_val_zeros, app_length, repeat_length.
  rewrite Nat2Z.inj_add, Z.pow_add_r by lia. rewrite Hp. destruct (pow10_Z n) as [r Hr]. rewrite Hr.
  rewrite !Nat2N.inj_add, !N.pow_add_r.
  assert (H1 : Z.of_N (10 ^ N.of_nat (length t)) = Zpos p) by (rewrite N2Z.inj_pow, nat_N_Z; exact Hp).
  assert (H2 : Z.of_N (10 ^ N.of_nat n) = Zpos r) by (rewrite N2Z.inj_pow, nat_N_Z; exact Hr).
  unfold Qeq, Qplus; cbn [Qnum Qden]. change (Z.pos p * Z.pos r)%Z with (Z.pos (p * r)).
  cbn [Z.to_pos]. rewrite !N2Z.inj_add, !N2Z.inj_mul, H1, H2. rewrite !Pos2Z.inj_mul. ring.
Qed.

Section Num.
Context `{U : Unicode} `{EX : Exc}.

Lemma num_char_not_end c : num_char c = true -> is_value_end_char c = false.
Proof.
  unfold num_char. rewrite !orb_true_iff, !N.eqb_eq. intros H.
  assert (R : 48 <= c <= 57 \/ c = 46 \/ c = 44 \/ c = 95).
  { destruct H as [[[H|H]|H]|H]; auto. apply digit_range in H. auto. }
  clear H. unfold is_value_end_char, is_whitespace, is_end_delimiter, is_op, ch_is_whitespace.
  repeat rewrite orb_false_iff. repeat rewrite andb_false_iff. repeat rewrite N.eqb_neq. repeat rewrite N.leb_gt.
  lia.
Qed.

Definition dbl (under : bool) (w : str) : bool :=
  double_under (if under then 95 :: w else w).
Lemma double_cons c w : double_under (c :: w) =
  ((c =? 95) && match w with d :: _ => d =? 95 | [] => false end) || double_under w.
Proof. destruct w; cbn [double_under]; [rewrite andb_false_r|]; auto. Qed.
Lemma dbl_other u c w : c =? 95 = false -> dbl u (c :: w) = dbl false w.
Proof.
  intros H. unfold dbl. destruct u; rewrite ?double_cons, ?H, ?andb_false_r; auto.
Qed.
Lemma dbl_under_f w : dbl false (95 :: w) = dbl true w.
Proof. reflexivity. Qed.
Lemma dbl_under_t w : dbl true (95 :: w) = true.
Proof. reflexivity. Qed.

Lemma num_cases c : num_char c = true ->
  (is_digit c = true /\ is_point c = false /\ (c =? 95) = false) \/
  (is_digit c = false /\ is_point c = true /\ (c =? 95) = false) \/
  (is_digit c = false /\ is_point c = false /\ c = 95).
Proof.
  unfold num_char, is_point. destruct (is_digit c) eqn:D.
  - intros _. left. apply digit_range in D. rewrite orb_false_iff, !N.eqb_neq. lia.
  - cbn [orb]. destruct (N.eqb_spec c 46) as [->|]; [auto|]. destruct (N.eqb_spec c 44) as [->|]; [auto|].
    cbn [orb]. intros H. apply N.eqb_eq in H. auto.
Qed.

Lemma scan_num_end rest l k s1 s2 dec u : fol rest -> exists l' k',
  scan_numeric rest l k s1 s2 dec u = (NS_ok s1 s2 dec, (rest, l', k')).
Proof.
  intros [->|(c & r & -> & V)]; cbn [scan_numeric]; [eauto|]. destruct (adv c l k). rewrite V. eauto.
Qed.

Lemma scan_num_dec w rest : Forall (fun c => num_char c = true) w -> fol rest -> forall l k s1 s2 u,
  if existsb is_point w || dbl u w
  then exists c q, scan_numeric (w ++ rest) l k s1 s2 true u = (NS_bad c, q)
  else exists l' k', scan_numeric (w ++ rest) l k s1 s2 true u = (NS_ok s1 (s2 ++ digits w) true, (rest, l', k')).
Proof.
  intros H F. induction H as [|c w Hc Hw IH]; intros l k s1 s2 u.
  - cbn [existsb orb]. destruct u; cbn; rewrite app_nil_r; apply scan_num_end; auto.
  - cbn [existsb]. cbn [app scan_numeric]. destruct (adv c l k) as [l' k']. rewrite (num_char_not_end _ Hc).
    cbn [negb]. unfold digits. cbn [filter].
    destruct (num_cases c Hc) as [(D & P & X)|[(D & P & X)|(D & P & ->)]].
    + rewrite D, P, dbl_other by auto. cbn [orb]. specialize (IH l' k' s1 (s2 ++ [c]) false).
      destruct (existsb is_point w || dbl false w); auto. rewrite <- app_assoc in IH. exact IH.
    + rewrite D, P. cbn [orb]. unfold is_point in P. rewrite P. eauto.
    + change (is_digit 95) with false. change (is_point 95) with false. cbn [orb].
      change ((95 =? 46) || (95 =? 44)) with false. change (95 =? 95) with true. cbv iota.
      destruct u; cbn [negb].
      * rewrite dbl_under_t, orb_true_r. eauto.
      * rewrite dbl_under_f. exact (IH l' k' s1 s2 true).
Qed.

Lemma scan_num_int w rest : Forall (fun c => num_char c = true) w -> fol rest -> forall l k s1 u,
  match split_point w with
  | (a, None) =>
      if dbl u w then exists c q, scan_numeric (w ++ rest) l k s1 [] false u = (NS_bad c, q)
      else exists l' k', scan_numeric (w ++ rest) l k s1 [] false u = (NS_ok (s1 ++ digits a) [] false, (rest, l', k'))
  | (a, Some b) =>
      if dbl u w || existsb is_point b then exists c q, scan_numeric (w ++ rest) l k s1 [] false u = (NS_bad c, q)
      else exists l' k', scan_numeric (w ++ rest) l k s1 [] false u =
        (NS_ok (s1 ++ digits a) (digits b) true, (rest, l', k'))
  end.
Proof.
  intros H F. induction H as [|c w Hc Hw IH]; intros l k s1 u.
  - cbn [split_point]. destruct u; cbn; rewrite app_nil_r; apply scan_num_end; auto.
  - cbn [split_point]. cbn [app scan_numeric]. destruct (adv c l k) as [l' k']. rewrite (num_char_not_end _ Hc).
    cbn [negb].
    destruct (num_cases c Hc) as [(D & P & X)|[(D & P & X)|(D & P & ->)]].
    + rewrite D, P, dbl_other by auto. specialize (IH l' k' (s1 ++ [c]) false).
      destruct (split_point w) as [a [b|]]; unfold digits in *; cbn [filter]; rewrite ?D.
      * destruct (dbl false w || existsb is_point b); auto. rewrite <- app_assoc in IH. exact IH.
      * destruct (dbl false w); auto. rewrite <- app_assoc in IH. exact IH.
    + rewrite D, P, dbl_other by auto. unfold is_point in P. rewrite P.
      pose proof (scan_num_dec w rest Hw F l' k' s1 [] false) as K. rewrite orb_comm.
      cbn [digits filter]. rewrite app_nil_r.
      destruct (existsb is_point w || dbl false w); exact K.
    + change (is_digit 95) with false. change (is_point 95) with false.
      change ((95 =? 46) || (95 =? 44)) with false. change (95 =? 95) with true. cbv iota.
      destruct u; cbn [negb].
      * rewrite dbl_under_t. cbn [orb]. destruct (split_point w) as [a [b|]]; eauto.
      * rewrite dbl_under_f. specialize (IH l' k' s1 true).
        destruct (split_point w) as [a [b|]]; exact IH.
Qed.

Lemma digits_digits w : forallb is_digit (digits w) = true.
Proof. apply forallb_forall. intros x Hx. apply filter_In in Hx. tauto. Qed.

Lemma parse_bigint_ok d s : forallb is_digit d = true -> d <> [] ->
  parse_bigint d s = (Ok (Z.of_N (dec_val d)), s).
Proof. intros H N. unfold parse_bigint. destruct d; [congruence|]. rewrite H. auto. Qed.

Lemma parse_numeric_agr s w rest line col : num_text w -> fol rest -> s_rest s = w ++ rest -> okst s ->
  agr okv idp (parse_numeric line col) (elift (num_value w)) rest s.
Proof.
  intros (c & r & -> & Hc & Hu & Hr) F R K.
  set (w := c :: r) in *. assert (Hw : Forall (fun c => num_char c = true) w) by (constructor; auto).
  unfold agr, parse_numeric. unfold bind at 1. rewrite R.
  pose proof (scan_num_int w rest Hw F (s_line s) (s_col s) [] false) as Sc.
  unfold num_value. destruct (split_point w) as [a [b|]]; unfold dbl in Sc.
  - destruct (double_under w) eqn:DU; cbn [orb] in Sc.
    { destruct Sc as (c' & [[r' l'] k'] & ->). cbn. auto. }
    destruct (existsb is_point b).
    { destruct Sc as (c' & [[r' l'] k'] & ->). cbn. auto. }
    destruct Sc as (l' & k' & ->). cbn [app set_stream].
    destruct (digits a ++ digits b) as [|d ds] eqn:E.
    { apply app_eq_nil in E as [-> ->]. cbn. auto. }
    assert (W : forall s0, (match digits a with [] => ret 0%Z | _ => parse_bigint (digits a) end) s0 =
      (Ok (Z.of_N (dec_val (digits a))), s0)).
    { intros s0. pose proof (digits_digits a) as Da. destruct (digits a) eqn:Ea; [reflexivity|].
      apply parse_bigint_ok; auto; discriminate. }
    assert (X : forall s0, (match trim_end_zeros (digits b) with
                 | [] => ret (0%Z, 1%nat)
                 | _ => bind (parse_bigint (trim_end_zeros (digits b))) (fun d => ret (d, length (trim_end_zeros (digits b))))
                 end) s0 = (Ok (Z.of_N (dec_val (trim_end_zeros (digits b))),
                    match trim_end_zeros (digits b) with [] => 1%nat | _ => length (trim_end_zeros (digits b)) end), s0)).
    { intros s0. pose proof (trim_digits _ (digits_digits b)) as Db.
      destruct (trim_end_zeros (digits b)) eqn:Eb; [reflexivity|].
      unfold bind. rewrite parse_bigint_ok; auto; discriminate. }
    destruct (frac_agree (digits a) (digits b)) as (q & Q1 & Q2).
    assert (Q3 : frac_from_whole_and_dec (Z.of_N (dec_val (digits a)))
      (Z.of_N (dec_val (trim_end_zeros (digits b))))
      (match trim_end_zeros (digits b) with [] => 1%nat | _ => length (trim_end_zeros (digits b)) end) = Some q).
    { destruct (trim_end_zeros (digits b)); exact Q1. }
    clear Q1.
    assert (G : (let* whole := (match digits a with [] => ret 0%Z | _ => parse_bigint (digits a) end) in
            let s2 := trim_end_zeros (digits b) in
            let* x :=
              (match s2 with
               | [] => ret (0%Z, 1%nat)
               | _ => let* d := parse_bigint s2 in ret (d, List.length s2)
               end) in
            match x with (decimal, dec_len) =>
            let* f := unwrap (frac_from_whole_and_dec whole decimal dec_len) in
            ret (VFrac f) end) (set_stream s rest l' k') = (Ok (VFrac q), set_stream s rest l' k')).
    { unfold bind at 1. rewrite W. cbv zeta. unfold bind at 1. rewrite X. rewrite Q3. reflexivity. }
    rewrite E in Q2. subst q. 
    assert (G2 : forall X (f : M X), (match digits a, digits b with [], [] => f | _, _ => f end) = f) by
      (intros; destruct (digits a), (digits b); auto).
    destruct (digits a) as [|a0 aa] eqn:Ea, (digits b) as [|b0 bb] eqn:Eb; try discriminate;
      cbv zeta in G; cbv zeta; rewrite G; cbn [elift]; unfold eret;
      (repeat split; [apply K|apply K|apply okv_leaf; exact I]).
  - destruct (double_under w) eqn:DU; cbn [orb] in Sc.
    { destruct Sc as (c' & [[r' l'] k'] & ->). cbn. auto. }
    destruct Sc as (l' & k' & ->). cbn [app].
    pose proof (digits_digits a) as Da.
    destruct (digits a) as [|d ds] eqn:E; [cbn; auto|].
    unfold bind. rewrite parse_bigint_ok; auto; [|discriminate].
    cbn [ret elift]. unfold eret. repeat split; try apply K. apply okv_leaf; exact I.
Qed.

(** ** Operators *)
Lemma unary_agr s v op line col : okst s -> okv v ->
  agr okv idp (unary_op_on_value v op line col) (elift (un_value op v)) (s_rest s) s.
Proof.
  intros K V. unfold agr.
  destruct op, v; cbn [unary_op_on_value get_type unwrap_o get_int get_frac bind ret fail un_value elift];
    unfold bind, ret, fail, eret, efail; first [right; reflexivity | repeat split; try apply K; apply okv_leaf; exact I].
Qed.

Lemma Qred_z_l z q (f : Q -> Q -> Q) : Proper (Qeq ==> Qeq ==> Qeq) f ->
  Qred (f (Qred (z # 1)) q) = Qred (f (z # 1) q).
Proof. intros P. apply Qred_complete. apply P; [apply Qred_correct|reflexivity]. Qed.
Lemma Qred_z_r z q (f : Q -> Q -> Q) : Proper (Qeq ==> Qeq ==> Qeq) f ->
  Qred (f q (Qred (z # 1))) = Qred (f q (z # 1)).
Proof. intros P. apply Qred_complete. apply P; [reflexivity|apply Qred_correct]. Qed.
Lemma q_is_zero_iff q : q_is_zero q = Qeq_bool q 0.
Proof.
  unfold q_is_zero. apply eq_true_iff_eq. rewrite Z.eqb_eq, Qeq_bool_iff. unfold Qeq. cbn. lia.
Qed.
Lemma q_is_zero_z z : q_is_zero (Qred (z # 1)) = Qeq_bool (z # 1) 0.
Proof.
  rewrite q_is_zero_iff. apply eq_true_iff_eq. rewrite !Qeq_bool_iff, Qred_correct. reflexivity.
Qed.
Lemma int_div a b : b <> 0%Z -> ratio_new a b = Some (Qred (Qmake a 1 / Qmake b 1)).
Proof.
  intros H. unfold ratio_new. destruct b as [|p|p]; [congruence| |]; f_equal; apply Qred_complete;
    unfold Qeq, Qdiv, Qmult, Qinv; cbn; lia.
Qed.

Ltac opstep := unfold agr, binary_op_on_values, ev_op, op_value;
  cbn [get_type ty_eqb ty_is andb as_frac unwrap_o get_int get_frac get_str unwrap ratio_new];
  unfold bind; cbn [ret fail unwrap_o get_int get_frac get_str unwrap]; unfold ret, fail, elift, eret, efail.

Lemma binary_agr s v w op line col : okst s -> okv v -> okv w ->
  agr okv idp (binary_op_on_values v w op line col) (ev_op op v w) (s_rest s) s.
Proof.
  intros K V W.
  destruct v as [|b|z|q|t|a|t|o]; try (destruct op, w; opstep; right; reflexivity).
  - (* Int *)
    destruct w as [|b|z'|q|t|a|t|o]; try (destruct op; opstep; right; reflexivity).
    + destruct op; opstep; try (repeat split; try apply K; apply okv_leaf; exact I).
      * destruct (Z.eqb_spec z' 0); [right; reflexivity|]. rewrite int_div by auto. cbn [unwrap ret].
        unfold ret. repeat split; try apply K; apply okv_leaf; exact I.
      * destruct (z' =? 0)%Z; [right; reflexivity|]. repeat split; try apply K; apply okv_leaf; exact I.
    + destruct op; opstep; unfold q_add, q_sub, q_mul, q_div.
      * rewrite (Qred_z_l z q Qplus) by typeclasses eauto. repeat split; try apply K; apply okv_leaf; exact I.
      * rewrite (Qred_z_l z q Qminus) by typeclasses eauto. repeat split; try apply K; apply okv_leaf; exact I.
      * rewrite (Qred_z_l z q Qmult) by typeclasses eauto. repeat split; try apply K; apply okv_leaf; exact I.
      * rewrite q_is_zero_iff. destruct (Qeq_bool q 0); [right; reflexivity|].
        rewrite (Qred_z_l z q Qdiv) by typeclasses eauto. repeat split; try apply K; apply okv_leaf; exact I.
      * right; reflexivity.
  - (* Frac *)
    destruct w as [|b|z|q'|t|a|t|o]; try (destruct op; opstep; right; reflexivity).
    + destruct op; opstep; unfold q_add, q_sub, q_mul, q_div.
      * rewrite (Qred_z_r z q Qplus) by typeclasses eauto. repeat split; try apply K; apply okv_leaf; exact I.
      * rewrite (Qred_z_r z q Qminus) by typeclasses eauto. repeat split; try apply K; apply okv_leaf; exact I.
      * rewrite (Qred_z_r z q Qmult) by typeclasses eauto. repeat split; try apply K; apply okv_leaf; exact I.
      * rewrite q_is_zero_z. destruct (Qeq_bool (z # 1) 0); [right; reflexivity|].
        rewrite (Qred_z_r z q Qdiv) by typeclasses eauto. repeat split; try apply K; apply okv_leaf; exact I.
      * right; reflexivity.
    + destruct op; opstep; unfold q_add, q_sub, q_mul, q_div; try (right; reflexivity);
        try (repeat split; try apply K; apply okv_leaf; exact I).
      rewrite q_is_zero_iff. destruct (Qeq_bool q' 0); [right; reflexivity|].
      repeat split; try apply K; apply okv_leaf; exact I.

  - (* Str *)
    destruct w as [|b|z|q|t'|a|t'|o]; destruct op; opstep; try (right; reflexivity).
    repeat split; try apply K; apply okv_leaf; exact I.
  - (* Arr *)
    destruct w as [|b|z|q|t|a'|t|o]; destruct op; opstep; try (right; reflexivity).
    cbn [most_specific]. destruct (most_specific (arr_inner_type a) (arr_inner_type a')) as [[t any]|]; [|right; reflexivity].
    cbn [get_arr unwrap_o]. unfold ret. cbn. destruct s as [f r l k g [vals op log gs]]. cbn.
    repeat split; try apply K. apply okv_arr. destruct a, a'. cbn.
    apply okv_arr in V. apply okv_arr in W. apply Forall_app; auto.
Qed.
Lemma binary_prio_agr s v w op line col : is_priority op = true -> okst s -> okv v -> okv w ->
  agr okv idp (binary_op_on_values v w op line col) (elift (op_value op v w)) (s_rest s) s.
Proof.
  intros P K V W. eapply agr_ext; [|apply binary_agr; auto]. destruct op; try discriminate; reflexivity.
Qed.

(** ** Names *)
Lemma gen_id_fresh s : gen_id s =
  (Ok (g_next (sh_g (s_sh s))), set_sh s (snd (snd (match fresh (st s) with Some x => x | None => (0, st s) end)))).
Proof. destruct s as [f r l k g [vals op log gs]]. reflexivity. Qed.
Lemma gen_id_agr s : okst s -> agr (fun _ => True) idp gen_id fresh (s_rest s) s.
Proof.
  intros K. unfold agr, gen_id. destruct s as [f r l k g [vals op log gs]]. cbn. repeat split; apply K.
Qed.
Lemma okv_empty i : okv (VObj (obj_empty i)).
Proof. unfold obj_empty. apply okv_obj. repeat split; try constructor. discriminate. Qed.
Lemma sentinel_agr s k : okst s ->
  agr (fun o => okv (VObj o) /\ exists i, o = obj_empty i) idp (sentinel k) (esentinel k) (s_rest s) s.
Proof.
  intros K. unfold agr, sentinel, esentinel. cbn [snd st].
  destruct (g_sent (sh_g (s_sh s)) k) as [i|] eqn:E.
  - repeat split; try apply K; eauto. apply okv_empty.
  - destruct s as [f r l k' g [vals op log gs]]. cbn. repeat split; try apply K; eauto. apply okv_empty.
Qed.

Lemma str_eqb_lit_diff a b : a <> b -> str_eqb a b = false.
Proof. apply str_eqb_neq. Qed.

Lemma lookup_agr s ps glob n line col : var_name glob n -> okst s -> okps ps ->
  agr okv idp (lookup_variable ps ((if glob then [64] else []) ++ n) glob line col)
    (ev_name ps glob n) (s_rest s) s.
Proof.
  intros (c & r & -> & Hc & Hr) K Kp. unfold lookup_variable, ev_name. destruct glob.
  - cbn [app].
    assert (X : forall t, hd_error t <> Some 64 -> str_eqb (64 :: c :: r) t = false).
    { intros t Ht. apply str_eqb_neq. intros E. apply Ht. rewrite <- E. auto. }
    rewrite !X by (cbn; discriminate).
    replace (str_eqb (64 :: c :: r) (lit "@")) with false
      by (symmetry; apply str_eqb_neq; cbn; discriminate).
    unfold agr, bind, ebind, get_globals, eglobals. cbn [fst st].
    destruct (assoc (64 :: c :: r) (s_globals s)) as [v|] eqn:A; [|right; reflexivity].
    cbn. repeat split; try apply K. eapply okps_assoc; [apply (proj1 K)|exact A].
  - cbn [app]. set (n := c :: r) in *.
    assert (N : str_eqb n (lit "@") = false).
    { apply str_eqb_neq. subst n. cbn. intros E. injection E as -> _. destruct Hc as [Hc| Hc]; [|discriminate].
      apply alpha_range in Hc. lia. }
    unfold constants, keywords. cbn [assoc].
    rewrite !(str_eqb_sym _ n).
    destruct (str_eqb n (lit "null")). { apply agr_ret; auto. apply okv_leaf; exact I. }
    destruct (str_eqb n (lit "true")). { apply agr_ret; auto. apply okv_leaf; exact I. }
    destruct (str_eqb n (lit "false")). { apply agr_ret; auto. apply okv_leaf; exact I. }
    do 4 match goal with |- agr _ _ (if ?b then _ else _) _ _ _ => destruct b;
      [eapply agr_bind; [apply sentinel_agr; exact K|]; cbn beta; intros o s' R' F' K' [O _];
       apply agr_ret; auto|] end.
    rewrite N. destruct (assoc n ps) as [v|] eqn:A; [|right; reflexivity].
    apply agr_ret; auto. eapply okps_assoc; eauto.
Qed.

(** ** Indices *)
Lemma index_agr s get vs idx line col : okst s -> Forall okv vs ->
  (forall i, match nth_error vs (N.to_nat i) with
             | Some v => get i = OOk v | None => exists e, get i = OErr e end) ->
  agr okv idp (index_by get idx line col) (elift (ev_index vs idx)) (s_rest s) s.
Proof.
  intros K F G. unfold index_by, ev_index. destruct idx; try (apply agr_fail; reflexivity).
  unfold to_usize. change (2 ^ 64)%Z with 18446744073709551616%Z.
  assert (E : ((0 <=? z) && (z <=? 18446744073709551615))%Z = ((0 <=? z) && (z <? 18446744073709551616))%Z).
  { apply eq_true_iff_eq. rewrite !andb_true_iff, !Z.leb_le, Z.ltb_lt. lia. }
  rewrite E. destruct ((0 <=? z)%Z && (z <? 18446744073709551616)%Z); [|apply agr_fail; reflexivity].
  specialize (G (Z.to_N z)). rewrite Z_N_nat in G. destruct (nth_error vs (Z.to_nat z)) as [v|] eqn:Nth.
  - rewrite G. apply agr_ret; auto. rewrite Forall_forall in F. apply F. eapply nth_error_In; eauto.
  - destruct G as [e ->]. right; reflexivity.
Qed.
Lemma arr_get_nth a i : match nth_error (arr_values a) (N.to_nat i) with
  | Some v => arr_get a i = OOk v | None => exists e, arr_get a i = OErr e end.
Proof.
  unfold arr_get, arr_len. destruct (N.leb_spec (N.of_nat (length (arr_values a))) i).
  - rewrite (proj2 (nth_error_None _ _)) by lia. eauto.
  - destruct (nth_error (arr_values a) (N.to_nat i)); eauto.
Qed.
Lemma tup_get_nth a i : match nth_error (tup_values a) (N.to_nat i) with
  | Some v => tup_get a i = OOk v | None => exists e, tup_get a i = OErr e end.
Proof.
  unfold tup_get, tup_len. destruct (N.leb_spec (N.of_nat (length (tup_values a))) i).
  - rewrite (proj2 (nth_error_None _ _)) by lia. eauto.
  - destruct (nth_error (tup_values a) (N.to_nat i)); eauto.
Qed.

(** ** Include keywords *)
Definition tok_ev (v : value) : ES (option inc_ty) :=
  match v with
  | VStr _ => eret None
  | VObj o =>
      do k <- ev_keyword o [IObj; IStr; IArr; ITup];;
      match k with Some k => eret (Some k) | None => efail end
  | _ => efail
  end.
Definition tok_pr (x : inc_ty + unit) : option inc_ty := match x with inl k => Some k | inr _ => None end.

Lemma token_agr s v line col : okst s ->
  agr (fun x => match v with VObj _ => x <> None | VStr _ => True | _ => False end) tok_pr (include_token v line col) (tok_ev v) (s_rest s) s.
Proof.
  intros K. unfold include_token, tok_ev. destruct v; try (apply agr_fail; reflexivity).
  - apply agr_ret; auto.
  - cbn [ev_keyword]. unfold obj_ptr_eq.
    eapply agr_ext; [symmetry; apply ebind_assoc|]. eapply agr_bind; [apply sentinel_agr; exact K|].
    cbn beta. intros o1 s1 R1 F1 K1 _. rewrite <- R1. clear R1.
    destruct (obj_id o =? obj_id o1). { apply agr_ret; auto; discriminate. }
    eapply agr_ext; [symmetry; apply ebind_assoc|]. eapply agr_bind; [apply sentinel_agr; exact K1|].
    cbn beta. intros o2 s2 R2 F2 K2 _. rewrite <- R2. clear R2.
    destruct (obj_id o =? obj_id o2). { apply agr_ret; auto; discriminate. }
    eapply agr_ext; [symmetry; apply ebind_assoc|]. eapply agr_bind; [apply sentinel_agr; exact K2|].
    cbn beta. intros o3 s3 R3 F3 K3 _. rewrite <- R3. clear R3.
    destruct (obj_id o =? obj_id o3). { apply agr_ret; auto; discriminate. }
    eapply agr_ext; [symmetry; apply ebind_assoc|]. eapply agr_bind; [apply sentinel_agr; exact K3|].
    cbn beta. intros o4 s4 R4 F4 K4 _. rewrite <- R4. clear R4.
    destruct (obj_id o =? obj_id o4). { apply agr_ret; auto; discriminate. }
    apply agr_fail. reflexivity.
Qed.

(** ** Types of Arrs *)
Definition lub_from (t : ty) (ts : list ty) : option ty :=
  fold_left (fun o t => match o with
                        | Some u => match most_specific u t with Some (x, _) => Some x | None => None end
                        | None => None
                        end) ts (Some t).
Lemma lub_none ts : fold_left (fun o t => match o with
                        | Some u => match most_specific u t with Some (x, _) => Some x | None => None end
                        | None => None
                        end) ts None = None.
Proof. induction ts; auto. Qed.
Lemma check_step_lub t any u : any = has_any t ->
  match arr_check_step t any u with
  | inl (t', any') => lub_from t [u] = Some t' /\ any' = has_any t'
  | inr _ => lub_from t [u] = None
  end.
Proof.
  intros ->. unfold lub_from, arr_check_step. cbn [fold_left].
  destruct (has_any t) eqn:H.
  - destruct (most_specific t u) as [[x a]|] eqn:E; auto. split; auto.
    pose proof (most_specific_spec t u) as S. rewrite E in S. destruct S as [S1 S2]. auto.
  - destruct (ty_eqb t u) eqn:E; cbn [negb].
    + apply ty_eqb_iff in E as (x & [X1 X2]). apply (no_any_maximal _ _ H) in X1 as ->.
      rewrite (most_specific_eq_some t u t); auto. split; [split; auto using le_ty_refl|].
      intros y [Y _]; auto.
    + rewrite most_specific_eq_none; auto. intros (x & X). apply eq_true_false_abs in E; auto.
      apply ty_eqb_iff. eauto.
Qed.
End Num.
