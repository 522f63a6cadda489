(** * Induct: one induction over the parser, giving totality, error positions, well-formedness of
    values and preservation of an invariant [SI] of the shared state. *)
From Verif Require Export Scan IncSpec.
From Coq Require String.
Import String.StringSyntax.
Open Scope N_scope.

Lemma NoDup_snoc {A} (l : list A) x : NoDup l -> ~ In x l -> NoDup (l ++ [x]).
Proof.
  intros H1 H2. apply (NoDup_Add (a := x) (l := l)); [|auto].
  pose proof (Add_app x l []) as H. rewrite app_nil_r in H. exact H.
Qed.

Section Facts.
Context `{U : Unicode}.

Lemma alpha_not_end c : ch_is_alphabetic c = true -> is_value_end_char c = false.
Proof.
  unfold ch_is_alphabetic. intros H.
  assert (G : (97 <= c <= 122 \/ 65 <= c <= 90) \/ 127 < c /\ ch_is_whitespace c = false).
  { rewrite !orb_true_iff, !andb_true_iff, !N.leb_le, N.ltb_lt, negb_true_iff in H. tauto. }
  unfold is_value_end_char, is_whitespace, is_end_delimiter, is_op.
  assert (N1 : forall k, (k < 65 \/ (90 < k < 97) \/ (122 < k <= 127)) -> (c =? k) = false)
    by (intros; apply N.eqb_neq; lia).
  rewrite !N1 by lia.
  assert (W : ch_is_whitespace c = false); [|rewrite W; auto].
  destruct G as [G|[_ G]]; auto. unfold ch_is_whitespace.
  assert (N2 : forall k, (k < 65 \/ 122 < k) -> (c =? k) = false) by (intros; apply N.eqb_neq; lia).
  rewrite !N2 by lia.
  replace (c <=? 13) with false by (symmetry; apply N.leb_gt; lia).
  replace (8192 <=? c) with false by (symmetry; apply N.leb_gt; lia).
  rewrite !andb_false_r, ?andb_false_l. reflexivity.
Qed.

Lemma digit_range c : is_digit c = true <-> 48 <= c <= 57.
Proof. unfold is_digit. rewrite andb_true_iff, !N.leb_le. tauto. Qed.

Lemma not_end_47_59 c : 48 <= c <= 59 \/ c = 44 \/ c = 46 \/ c = 95 \/ c = 94 \/ c = 64 -> is_value_end_char c = false.
Proof.
  intros H. unfold is_value_end_char, is_whitespace, is_end_delimiter, is_op, ch_is_whitespace.
  assert (N1 : forall k, k < 44 \/ k = 45 \/ k = 47 \/ 59 < k < 64 \/ k = 93 \/ 95 < k -> (c =? k) = false)
    by (intros; apply N.eqb_neq; lia).
  rewrite !N1 by lia.
  replace (c <=? 13) with false by (symmetry; apply N.leb_gt; lia).
  replace (8192 <=? c) with false by (symmetry; apply N.leb_gt; lia).
  rewrite !andb_false_r, ?andb_false_l. reflexivity.
Qed.

Lemma numeric_not_end c : is_numeric_char c = true -> is_value_end_char c = false.
Proof.
  unfold is_numeric_char. rewrite !orb_true_iff, digit_range, !N.eqb_eq. intros H.
  apply not_end_47_59. lia.
Qed.

Lemma valid_field_cases c first : is_valid_field_char c first = true ->
  ch_is_alphabetic c = true \/ (is_digit c = true /\ first = false) \/ c = c_under \/
  (c = c_caret /\ first = true).
Proof.
  unfold is_valid_field_char. destruct (ch_is_alphabetic c); auto.
  destruct (is_digit c); [destruct first; auto; discriminate|].
  destruct (N.eqb_spec c 95); auto. destruct (N.eqb_spec c 94); auto; discriminate.
Qed.

Lemma field_not_end c b : is_valid_field_char c b = true -> is_value_end_char c = false.
Proof.
  intros H. apply valid_field_cases in H as [H|[[H _]|[->|[-> _]]]].
  - apply alpha_not_end; auto.
  - apply digit_range in H. apply not_end_47_59. lia.
  - reflexivity.
  - reflexivity.
Qed.

Lemma legal_field_intro w :
  w <> [] -> is_valid_field_from true w = true -> is_reserved w = false ->
  (forall r, w <> c_caret :: r) -> legal_field w.
Proof.
  intros Hn Hv Hr Hc. destruct w as [|c r]; [congruence|]. exists c, r. split; auto.
  cbn in Hv. destruct (is_valid_field_char c true) eqn:V; [|discriminate]. split.
  { apply valid_field_cases in V as [?|[[_ ?]|[?|[-> _]]]]; auto; try discriminate.
    exfalso. eapply Hc; eauto. }
  split.
  - clear - Hv. induction r as [|d r IH]; constructor; cbn in Hv;
      destruct (is_valid_field_char d false) eqn:V; try discriminate; auto.
    apply valid_field_cases in V as [?|[[? _]|[?|[_ ?]]]]; auto; discriminate.
  - rewrite <- is_reserved_iff, Hr. discriminate.
Qed.

Definition starts_caret (f : str) : bool := match f with c :: _ => c =? c_caret | [] => false end.
Lemma caret_match {A} (f : str) (a b : A) :
  match f with 94 :: _ => a | _ => b end = if starts_caret f then a else b.
Proof.
  destruct f as [|c f]; [reflexivity|]. cbn. destruct (N.eqb_spec c 94) as [->|H]; [reflexivity|].
  destruct c as [|p]; auto. repeat (destruct p as [p|p|]; auto). congruence.
Qed.

Lemma pos_at_unsnoc pre x l k : pos_at (pre ++ [x]) l k -> x <> c_nl -> pos_at pre l (k - 1).
Proof.
  intros (Hl & lines & last & E & Hn & Hs & Hc) Hx.
  destruct (exists_last (l := last)) as (last' & y & ->).
  { intros ->. rewrite app_nil_r in E. destruct Hs as [->|[lines' ->]].
    - destruct pre; discriminate.
    - apply app_inj_tail in E as [_ E]. congruence. }
  rewrite app_assoc in E. apply app_inj_tail in E as [-> ->].
  split.
  - rewrite Hl. rewrite count_occ_app, count_occ_cons_neq by auto.
    change (count_occ N.eq_dec [] 10) with 0%nat. lia.
  - exists lines, last'. repeat split; auto.
    + unfold no_nl in *. apply Forall_app in Hn. tauto.
    + rewrite Hc, app_length. change (length [y]) with 1%nat. lia.
Qed.

Lemma pos_at_nl_col pre l k : pos_at (pre ++ [c_nl]) l k -> k = 1.
Proof.
  intros (Hl & lines & last & E & Hn & Hs & Hc). destruct last as [|a last _] using rev_ind; [auto|].
  rewrite app_assoc in E. apply app_inj_tail in E as [_ <-].
  apply Forall_app in Hn as [_ Hn]. inversion Hn; congruence.
Qed.
End Facts.

#[local] Hint Extern 1 (is_cyc _ = false) => reflexivity : core.

Section Induct.
Context `{U : Unicode}.
Variable fs : fsys.
Variable load_inc : inc_ty -> str -> shared -> outcome value * shared.
(** what must hold if the run ends in a panic / without fuel *)
Variable X : bool -> Prop.
(** the text being parsed and the name of its file *)
Variable T : str.
Variable F : option str.
(** invariant of the shared state; what is left of it after an error; errors of included files *)
Variable SI : shared -> Prop.
Variable SW : perr -> shared -> Prop.
Variable IE : perr -> Prop.
Hypothesis SI_SW : forall e sh, SI sh -> is_cyc (e_kind e) = false -> SW e sh.
Hypothesis SI_gen : forall sh, SI sh -> SI (set_g sh (bump (sh_g sh))).
Hypothesis SI_sent : forall sh k, SI sh -> g_sent (sh_g sh) k = None ->
  SI (set_g sh (g_new_sent (sh_g sh) k)).

Notation wfv := (wf_value good_names).
Notation wfo := (wf_obj good_names).
Definition wfps (ps : list pair_t) : Prop :=
  good_names (map fst ps) /\ Forall wfv (map snd ps).
Definition wfgl (g : list (str * value)) : Prop := Forall (fun p => wfv (snd p)) g.
Definition len (s : pstate) : nat := length (s_rest s).

Definition Inv (s : pstate) : Prop :=
  s_file s = F /\ in_text T s /\ wfgl (s_globals s) /\ SI (s_sh s).
Definition Er (e : perr) (s : pstate) : Prop :=
  ((e_file e = F /\ located T (e_kind e)) \/ IE e) /\ SW e (s_sh s).

(** [finish_include] keeps the stream; proved at the level of files. *)
Hypothesis finish_spec : forall ty f line col s, Inv s -> at_pos T line col ->
  wp X (finish_include fs load_inc ty f line col)
     (fun v s' => Inv s' /\ s_rest s' = s_rest s /\ wfv v) Er s.

Lemma Inv_moved s s' : Inv s -> moved s s' -> Inv s'.
Proof.
  intros (A & B & C & D) [con M]. pose proof M as (E1 & E2 & E3 & E4 & E5). repeat split.
  - congruence.
  - eapply in_text_moved_by; eauto.
  - congruence.
  - congruence.
Qed.
Lemma moved_len s s' : moved s s' -> (len s' <= len s)%nat.
Proof. intros [con (E & _)]. unfold len. rewrite E, app_length. lia. Qed.
Lemma moved_by_len con s s' : moved_by con s s' -> len s = (length con + len s')%nat.
Proof. intros (E & _). unfold len. rewrite E, app_length. lia. Qed.

Lemma len_adv1 s c r : s_rest s = c :: r -> len s = S (len (adv1 s c r)).
Proof. intros E. unfold len. rewrite E. reflexivity. Qed.
Lemma Inv_adv1 s c r : s_rest s = c :: r -> Inv s -> Inv (adv1 s c r).
Proof. intros. eapply Inv_moved; eauto. apply moved_adv1; auto. Qed.
Lemma Inv_pos s : Inv s -> at_pos T (s_line s) (s_col s).
Proof. intros (_ & H & _). apply in_text_pos; auto. Qed.
Lemma Inv_char s c r : Inv s -> s_rest s = c :: r -> char_at T c (s_line s) (s_col s).
Proof. intros (_ & H & _). apply in_text_char; auto. Qed.
Lemma Inv_end s : Inv s -> s_rest s = [] -> last_line T (s_line s).
Proof. intros (_ & H & _). apply in_text_end; auto. Qed.
Lemma Inv_SW s e : Inv s -> is_cyc (e_kind e) = false -> SW e (s_sh s).
Proof. intros (_ & _ & _ & H). auto. Qed.
Lemma Inv_file s : Inv s -> s_file s = F.
Proof. intros (H & _). auto. Qed.

Lemma wp_failI {A} k (Q : A -> pstate -> Prop) s :
  Inv s -> located T k -> is_cyc k = false -> wp X (fail k) Q Er s.
Proof. intros H L C. apply wp_fail. split; [left; cbn; split; auto using Inv_file|auto using Inv_SW]. Qed.

Lemma wp_fcI (Q : bool -> pstate -> Prop) E s :
  Inv s ->
  (forall s' c r, Inv s' -> (len s' <= len s)%nat -> s_rest s' = c :: r ->
     ch_is_whitespace c = false -> c <> c_hash -> Q true s') ->
  (forall s', Inv s' -> s_rest s' = [] -> Q false s') ->
  wp X find_char Q E s.
Proof.
  intros I H1 H2. apply wp_find_char. intros b s' M Ht Hf.
  pose proof (Inv_moved _ _ I M). pose proof (moved_len _ _ M). destruct b.
  - destruct Ht as (c & r & E1 & E2 & E3); eauto.
  - eauto.
Qed.

Lemma wp_endI {A} (Q : A -> pstate -> Prop) s :
  Inv s -> s_rest s = [] -> wp X (let* l := getline in fail (UnexpectedEnd l)) Q Er s.
Proof. intros I R. wps. apply wp_failI; auto. apply Inv_end; auto. Qed.

Lemma wp_gen (Q : N -> pstate -> Prop) E s :
  Inv s -> (forall s' i, Inv s' -> s_rest s' = s_rest s -> Q i s') -> wp X gen_id Q E s.
Proof.
  intros I H. unfold wp, gen_id. apply H; auto. destruct I as (A & B & C & D).
  repeat split; auto. cbn. apply SI_gen; auto.
Qed.

Lemma wp_sent k (Q : obj -> pstate -> Prop) E s :
  Inv s -> (forall s' i, Inv s' -> s_rest s' = s_rest s -> Q (obj_empty i) s') ->
  wp X (sentinel k) Q E s.
Proof.
  intros I H. unfold wp, sentinel. destruct (g_sent (sh_g (s_sh s)) k) eqn:G; [auto|]. cbn.
  apply H; auto. destruct I as (A & B & C & D). repeat split; auto. cbn.
  apply (SI_sent _ k D G).
Qed.

Lemma wfo_empty i : wfo (obj_empty i).
Proof. constructor; cbn; auto; [split; constructor|discriminate]. Qed.

Lemma wp_new_obj ps par (Q : obj -> pstate -> Prop) E s :
  Inv s -> wfps ps -> (forall p, par = Some p -> wfo p) ->
  (forall s' o, Inv s' -> s_rest s' = s_rest s -> wfo o -> Q o s') -> wp X (new_obj ps par) Q E s.
Proof.
  intros I [W1 W2] W3 H. unfold new_obj. wp1. apply wp_gen; auto. intros. wps. apply H; auto.
  constructor; auto.
Qed.
Lemma wp_new_arr vs t (Q : arr -> pstate -> Prop) E s :
  Inv s -> Forall wfv vs -> least_spec_all (map get_type vs) t ->
  (forall s' a, Inv s' -> s_rest s' = s_rest s -> wfv (VArr a) -> Q a s') ->
  wp X (new_arr vs t) Q E s.
Proof.
  intros I W1 W2 H. unfold new_arr. wp1. apply wp_gen; auto. intros. wps. apply H; auto.
  constructor; auto.
Qed.
Lemma wp_new_tup vs (Q : tup -> pstate -> Prop) E s :
  Inv s -> Forall wfv vs ->
  (forall s' a, Inv s' -> s_rest s' = s_rest s -> wfv (VTup a) -> Q a s') ->
  wp X (new_tup vs) Q E s.
Proof.
  intros I W1 H. unfold new_tup. wp1. apply wp_gen; auto. intros. wps. apply H; auto.
  constructor; auto.
Qed.

Lemma len_rest s s' : s_rest s' = s_rest s -> len s' = len s.
Proof. unfold len. congruence. Qed.

(** *** Leaves *)

Definition Qlt (s : pstate) (v : value) (s' : pstate) : Prop :=
  Inv s' /\ (len s' < len s)%nat /\ wfv v.

(** position of the character just consumed *)
Lemma last_consumed s s' con c :
  Inv s -> moved_by (con ++ [c]) s s' ->
  (c <> c_nl /\ char_at T c (s_line s') (s_col s' - 1)) \/
  (c = c_nl /\ newline_before T (s_line s') (s_col s' - 1)).
Proof.
  intros (_ & (pre & ET & P) & _) (E1 & E2 & _).
  assert (P' : pos_at (pre ++ con ++ [c]) (s_line s') (s_col s')).
  { apply (pos_at_advs (con ++ [c])) in P. rewrite <- E2 in P. exact P. }
  rewrite app_assoc in P'.
  destruct (N.eq_dec c 10) as [->|Hc].
  - right. split; auto. pose proof (pos_at_nl_col _ _ _ P') as K. rewrite K in *. split; auto.
    exists (pre ++ con), (s_rest s'). split; auto. rewrite ET, E1, <- !app_assoc. auto.
  - left. split; auto. exists (pre ++ con), (s_rest s'). split.
    + rewrite ET, E1, <- !app_assoc. auto.
    + eapply pos_at_unsnoc; eauto.
Qed.

Lemma wp_col_minus_1 (Q : N -> pstate -> Prop) E s :
  Inv s -> Q (s_col s - 1) s -> wp X col_minus_1 Q E s.
Proof.
  intros (_ & (pre & _ & P) & _) H. unfold wp, col_minus_1. apply pos_at_col in P.
  destruct (N.eqb_spec (s_col s) 0); [lia|auto].
Qed.

Lemma parse_str_spec s r : Inv s -> s_rest s = c_quote :: r ->
  wp X parse_str (Qlt s) Er s.
Proof.
  intros I R. unfold parse_str. wp1. eapply wp_next_unwrap; eauto. wp1.
  apply wp_assert_true; [reflexivity|]. pose proof (Inv_adv1 _ _ _ R I) as I1.
  pose proof (len_adv1 _ _ _ R) as L1. set (s1 := adv1 s 34 r) in *.
  wp1. unfold wp at 1.
  destruct (scan_str (s_rest s1) (s_line s1) (s_col s1) [] false) as [x [[r' l'] k']] eqn:Sc.
  apply scan_str_spec in Sc as (con & Sc & H). apply scanned_moved in Sc.
  assert (M : moved s1 (set_stream s1 r' l' k')) by (exists con; auto).
  pose proof (Inv_moved _ _ I1 M) as I2. pose proof (moved_len _ _ M) as L2.
  set (s2 := set_stream s1 r' l' k') in *.
  destruct x.
  - wps. split; auto. split; [lia|constructor].
  - destruct H as [con' ->]. wps. apply wp_col_minus_1; auto. apply wp_failI; auto. cbn [located].
    eapply last_consumed; [exact I1|exact Sc].
  - apply wp_endI; auto.
Qed.

Lemma parse_bigint_spec s0 (Q : Z -> pstate -> Prop) E s :
  forallb is_digit s0 = true -> s0 <> [] -> Q (Z.of_N (dec_val s0)) s ->
  wp X (parse_bigint s0) Q E s.
Proof. intros H1 H2 H. unfold parse_bigint. destruct s0; [congruence|]. rewrite H1. wps. auto. Qed.

Lemma forallb_rev {A} (f : A -> bool) l : forallb f (rev l) = forallb f l.
Proof.
  induction l; cbn; auto. rewrite forallb_app, IHl. cbn. rewrite andb_true_r. apply andb_comm.
Qed.
Lemma drop_zeros_digits l : forallb is_digit l = true -> forallb is_digit (drop_zeros l) = true.
Proof.
  induction l; auto. cbn [drop_zeros forallb]. intros H. destruct (a =? 48); auto.
  apply andb_true_iff in H. tauto.
Qed.
Lemma trim_digits l : forallb is_digit l = true -> forallb is_digit (trim_end_zeros l) = true.
Proof. intros. unfold trim_end_zeros. rewrite forallb_rev. apply drop_zeros_digits. rewrite forallb_rev; auto. Qed.

Lemma pow10_pos n : exists p, (10 ^ Z.of_nat n)%Z = Zpos p.
Proof.
  assert (0 < 10 ^ Z.of_nat n)%Z by (apply Z.pow_pos_nonneg; lia).
  destruct (10 ^ Z.of_nat n)%Z; try lia. eauto.
Qed.
Lemma frac_total w d n : exists q, frac_from_whole_and_dec w d n = Some q /\ lowest q.
Proof.
  unfold frac_from_whole_and_dec. destruct (pow10_pos n) as [p ->]. cbn [ratio_new].
  eexists. split; eauto. apply lowest_Qred. apply Qcanon.Qred_involutive.
Qed.

Lemma parse_numeric_spec s c r line col : Inv s -> s_rest s = c :: r -> is_numeric_char c = true ->
  at_pos T line col -> wp X (parse_numeric line col) (Qlt s) Er s.
Proof.
  intros I R Hc P. unfold parse_numeric. wp1. unfold wp at 1.
  destruct (scan_numeric (s_rest s) (s_line s) (s_col s) [] [] false false) as [x [[r' l'] k']] eqn:Sc.
  apply scan_numeric_spec in Sc as (con & Sc & H); auto. apply scanned_moved in Sc.
  assert (M : moved s (set_stream s r' l' k')) by (exists con; auto).
  pose proof (Inv_moved _ _ I M) as I2. pose proof (moved_by_len _ _ _ Sc) as L2.
  set (s2 := set_stream s r' l' k') in *.
  destruct x as [s1 s2' dec|].
  - destruct H as (D1 & D2 & Hcon).
    assert (Hne : con <> []).
    { intros ->. specialize (Hcon eq_refl). rewrite R in Hcon.
      destruct Hcon as [|(? & ? & E & V)]; [discriminate|]. inversion E; subst.
      rewrite numeric_not_end in V; auto. discriminate. }
    assert (Hlt : (len s2 < len s)%nat) by (destruct con; [congruence|cbn [length] in L2; lia]).
    destruct dec.
    + assert (G : wp X
        (let* whole := (match s1 with [] => ret 0%Z | _ => parse_bigint s1 end) in
            let s2 := trim_end_zeros s2' in
            let* '(decimal, dec_len) :=
              (match s2 with
               | [] => ret (0%Z, 1%nat)
               | _ => let* d := parse_bigint s2 in ret (d, List.length s2)
               end) in
            let* f := unwrap (frac_from_whole_and_dec whole decimal dec_len) in
            ret (VFrac f)) (Qlt s) Er s2).
      { assert (K : forall w, wp X (let s2 := trim_end_zeros s2' in
            let* '(decimal, dec_len) :=
              (match s2 with
               | [] => ret (0%Z, 1%nat)
               | _ => let* d := parse_bigint s2 in ret (d, List.length s2)
               end) in
            let* f := unwrap (frac_from_whole_and_dec w decimal dec_len) in
            ret (VFrac f)) (Qlt s) Er s2).
        { intros w. cbv zeta.
          assert (K : forall d n, wp X (let* f := unwrap (frac_from_whole_and_dec w d n) in
            ret (VFrac f)) (Qlt s) Er s2).
          { intros d n. destruct (frac_total w d n) as (q & -> & Lq). cbn [unwrap]. wps.
            split; auto. split; auto. constructor; auto. }
          pose proof (trim_digits _ D2) as D3.
          destruct (trim_end_zeros s2') eqn:Tr; wp1; [wp1; apply K|].
          wp1. apply parse_bigint_spec; auto; [discriminate|]. wp1. apply K. }
        wp1. destruct s1; [wp1; apply K|]. apply parse_bigint_spec; auto. discriminate. }
      destruct s1; [destruct s2'; [|exact G]|exact G].
      apply wp_failI; auto.
    + destruct s1.
      * apply wp_failI; auto.
      * wp1. apply parse_bigint_spec; auto; [discriminate|]. wps. split; auto. split; auto. constructor.
  - destruct H as [r0 H]. wps. apply wp_failI; auto. cbn [located]. eapply Inv_char; eauto.
Qed.

Lemma parse_field_spec s c r line col : Inv s -> s_rest s = c :: r ->
  line = s_line s -> col = s_col s -> 
  wp X (parse_field line col)
    (fun p s' => Inv s' /\ (len s' < len s)%nat /\ text_at T (fst p) line col /\
       s_globals s' = s_globals s /\
       (snd p = FRegular -> legal_field (fst p)) /\ (snd p = FParent -> fst p = lit "^")) Er s.
Proof.
  intros I R -> ->. unfold parse_field. wp1. eapply wp_peek_unwrap; eauto. wp1.
  assert (G : forall s1 pre0, Inv s1 -> moved_by pre0 s s1 -> (pre0 = [] \/ pre0 = [64]) ->
    (pre0 = [] -> c <> 64) -> (pre0 <> [] -> c = 64) ->
    wp X
    (let* r0 := (fun s0 => let '(x, (r, l, k)) :=
                        scan_field (s_rest s0) (s_line s0) (s_col s0) pre0 true in
                      (Ok x, set_stream s0 r l k)) in
     match r0 with
     | FS_bad c =>
      let* l := getline in
      let* k := col_minus_1 in
      fail (InvalidFieldChar c l k)
     | FS_ok field =>
      if is_reserved field then fail (InvalidFieldName field (s_line s) (s_col s))
      else if str_eqb field (lit "^") then ret (field, FParent)
      else match field with
           | 94 :: _ => fail (InvalidFieldName field (s_line s) (s_col s))
           | _ => ret (field, if c =? 64 then FGlobal else FRegular)
           end
     end) (fun p s' => Inv s' /\ (len s' < len s)%nat /\ text_at T (fst p) (s_line s) (s_col s) /\
       s_globals s' = s_globals s /\
       (snd p = FRegular -> legal_field (fst p)) /\ (snd p = FParent -> fst p = lit "^")) Er s1).
  { intros s1 pre0 I1 M1 Hp0 Hp1 Hp2. wp1. unfold wp at 1.
    destruct (scan_field (s_rest s1) (s_line s1) (s_col s1) pre0 true) as [x [[r' l'] k']] eqn:Sc.
    apply scan_field_spec in Sc as (con & Sc & H). apply scanned_moved in Sc.
    pose proof (moved_by_trans _ _ _ _ _ M1 Sc) as M.
    pose proof (Inv_moved _ _ I1 (ex_intro (fun c => moved_by c _ _) _ Sc)) as I2.
    pose proof (moved_by_len _ _ _ M) as L2. set (s2 := set_stream s1 r' l' k') in *.
    destruct x as [f|d].
    - destruct H as (w & -> & Hcon & Hv & Hne & Hw).
      assert (Ht : text_at T (pre0 ++ w) (s_line s) (s_col s)).
      { destruct I as (_ & It & _). destruct M as (M & _). destruct Hcon as [-> | [-> _]].
        - eapply in_text_text; eauto. rewrite M, <- !app_assoc. reflexivity.
        - eapply in_text_text; eauto. }
      assert (Hg : s_globals s2 = s_globals s) by (destruct M as (_ & _ & _ & ? & _); auto).
      assert (Hlt : (len s2 < len s)%nat).
      { rewrite L2, app_length. destruct Hp0 as [->| ->]; [|cbn; lia].
        destruct con; [|cbn; lia]. exfalso. apply Hne; auto.
        destruct M1 as (M1 & _). rewrite R in M1. cbn in M1. rewrite <- M1. discriminate. }
      destruct (is_reserved (pre0 ++ w)) eqn:Rs; [apply wp_failI; auto|].
      destruct (str_eqb_spec (pre0 ++ w) (lit "^")) as [Ep|Ep].
      { wps. cbn [fst snd]. repeat split; auto; try discriminate; apply I2. }
      rewrite caret_match. destruct (starts_caret (pre0 ++ w)) eqn:Sc0; [apply wp_failI; auto|].
      wps. cbn [fst snd]. split; [auto|]. split; [auto|]. split; auto. split; auto. split.
      + intros Hreg. destruct (N.eqb_spec c 64); [discriminate|].
        destruct Hp0 as [->| ->]; [|exfalso; apply n, Hp2; discriminate].
        cbn [app] in *. apply legal_field_intro; auto.
        * intros ->. destruct Hcon as [->|[-> Hr]].
          -- apply Hw; auto.
          -- apply Hne; auto. destruct M1 as (M1 & _). rewrite R in M1. cbn in M1. rewrite <- M1. discriminate.
        * intros r0 ->. discriminate.
      + destruct (c =? 64); discriminate.
    - destruct H as [con' ->]. wps. apply wp_col_minus_1; auto. apply wp_failI; auto. cbn [located].
      eapply last_consumed; [exact I1|exact Sc]. }
  destruct (N.eqb_spec c 64).
  - wp1. eapply wp_next_unwrap; eauto. wp1. subst c. apply (G (adv1 s 64 r) [64]); auto.
    + apply Inv_adv1; auto.
    + apply moved_by_adv1; auto.
    + discriminate.
  - wp1. apply (G s []); auto using moved_by_nil; congruence.
Qed.

(** *** Operators *)
Definition Qsame (s : pstate) (v : value) (s' : pstate) : Prop :=
  Inv s' /\ s_rest s' = s_rest s /\ wfv v.

Lemma lowest_opp q : lowest q -> lowest (Qopp q).
Proof. unfold lowest, Qopp. cbn. rewrite Z.gcd_opp_l. auto. Qed.
Lemma lowest_red q : lowest (Qred q).
Proof. apply lowest_Qred. apply Qcanon.Qred_involutive. Qed.

Lemma unary_spec v op line col s : Inv s -> wfv v -> at_pos T line col ->
  wp X (unary_op_on_value v op line col) (Qsame s) Er s.
Proof.
  intros I W P. unfold unary_op_on_value.
  destruct op, v; cbn [get_type]; try (apply wp_failI; auto; fail); unfold Qsame; wps; cbn [get_int get_frac unwrap_o];
    wps; repeat split; auto; try apply I; try constructor.
  inversion W; subst. apply lowest_opp; auto.
Qed.

Lemma ty_int v : ty_eqb (get_type v) TInt = true -> exists z, v = VInt z.
Proof. destruct v; cbn; intros; try discriminate; eauto. Qed.
Lemma ty_frac v : ty_eqb (get_type v) TFrac = true -> exists z, v = VFrac z.
Proof. destruct v; cbn; intros; try discriminate; eauto. Qed.
Lemma ty_str v : ty_eqb (get_type v) TStr = true -> exists z, v = VStr z.
Proof. destruct v; cbn; intros; try discriminate; eauto. Qed.

Lemma binary_spec v1 v2 op line col s : Inv s -> wfv v1 -> wfv v2 -> at_pos T line col ->
  wp X (binary_op_on_values v1 v2 op line col) (Qsame s) Er s.
Proof.
  intros I W1 W2 P. unfold binary_op_on_values. wp1.
  assert (G : forall v1 v2, wfv v1 -> wfv v2 ->
    wp X (match op with
  | BPlus =>
      match get_type v1 with
      | TInt =>
          if ty_eqb (get_type v2) TInt then
            let* a := unwrap_o (get_int v1) in
            let* b := unwrap_o (get_int v2) in ret (VInt (a + b))
          else fail (BinaryOperatorError (get_type v1) (get_type v2) op line col)
      | TFrac =>
          if ty_eqb (get_type v2) TFrac then
            let* a := unwrap_o (get_frac v1) in
            let* b := unwrap_o (get_frac v2) in ret (VFrac (q_add a b))
          else fail (BinaryOperatorError (get_type v1) (get_type v2) op line col)
      | TStr =>
          if ty_eqb (get_type v2) TStr then
            let* a := unwrap_o (get_str v1) in
            let* b := unwrap_o (get_str v2) in ret (VStr (a ++ b))
          else fail (BinaryOperatorError (get_type v1) (get_type v2) op line col)
      | TArr _ =>
          match most_specific (get_type v1) (get_type v2) with
          | Some (t, _) =>
              let* a := unwrap_o (get_arr v1) in
              let* b := unwrap_o (get_arr v2) in
              match t with
              | TArr t => let* r := new_arr (arr_values a ++ arr_values b) t in ret (VArr r)
              | _ => panic
              end
          | None => fail (BinaryOperatorError (get_type v1) (get_type v2) op line col)
          end
      | _ => fail (BinaryOperatorError (get_type v1) (get_type v2) op line col)
      end
  | BMinus =>
      match get_type v1 with
      | TInt =>
          if ty_eqb (get_type v2) TInt then
            let* a := unwrap_o (get_int v1) in
            let* b := unwrap_o (get_int v2) in ret (VInt (a - b))
          else fail (BinaryOperatorError (get_type v1) (get_type v2) op line col)
      | TFrac =>
          if ty_eqb (get_type v2) TFrac then
            let* a := unwrap_o (get_frac v1) in
            let* b := unwrap_o (get_frac v2) in ret (VFrac (q_sub a b))
          else fail (BinaryOperatorError (get_type v1) (get_type v2) op line col)
      | _ => fail (BinaryOperatorError (get_type v1) (get_type v2) op line col)
      end
  | BMult =>
      match get_type v1 with
      | TInt =>
          if ty_eqb (get_type v2) TInt then
            let* a := unwrap_o (get_int v1) in
            let* b := unwrap_o (get_int v2) in ret (VInt (a * b))
          else fail (BinaryOperatorError (get_type v1) (get_type v2) op line col)
      | TFrac =>
          if ty_eqb (get_type v2) TFrac then
            let* a := unwrap_o (get_frac v1) in
            let* b := unwrap_o (get_frac v2) in ret (VFrac (q_mul a b))
          else fail (BinaryOperatorError (get_type v1) (get_type v2) op line col)
      | _ => fail (BinaryOperatorError (get_type v1) (get_type v2) op line col)
      end
  | BDiv =>
      match get_type v1 with
      | TInt =>
          if ty_eqb (get_type v2) TInt then
            let* a := unwrap_o (get_int v1) in
            let* b := unwrap_o (get_int v2) in
            if Z.eqb b 0 then fail (InvalidNumeric line col)
            else let* q := unwrap (ratio_new a b) in ret (VFrac q)
          else fail (BinaryOperatorError (get_type v1) (get_type v2) op line col)
      | TFrac =>
          if ty_eqb (get_type v2) TFrac then
            let* a := unwrap_o (get_frac v1) in
            let* b := unwrap_o (get_frac v2) in
            if q_is_zero b then fail (InvalidNumeric line col)
            else ret (VFrac (q_div a b))
          else fail (BinaryOperatorError (get_type v1) (get_type v2) op line col)
      | _ => fail (BinaryOperatorError (get_type v1) (get_type v2) op line col)
      end
  | BMod =>
      match get_type v1 with
      | TInt =>
          if ty_eqb (get_type v2) TInt then
            let* b := unwrap_o (get_int v2) in
            if Z.eqb b 0 then fail (InvalidNumeric line col)
            else let* a := unwrap_o (get_int v1) in ret (VInt (Z.rem a b))
          else fail (BinaryOperatorError (get_type v1) (get_type v2) op line col)
      | _ => fail (BinaryOperatorError (get_type v1) (get_type v2) op line col)
      end
  end) (Qsame s) Er s).
  { clear v1 v2 W1 W2. intros v1 v2 W1 W2.
    assert (Fl : forall t1 t2, wp X (fail (BinaryOperatorError t1 t2 op line col)) (Qsame s) Er s)
      by (intros; apply wp_failI; auto).
    assert (Fn : wp X (fail (InvalidNumeric line col)) (Qsame s) Er s)
      by (intros; apply wp_failI; auto).
    assert (Rt : forall v, wfv v -> Qsame s v s) by (intros; repeat split; auto; apply I).
    assert (Fr : forall q, Qsame s (VFrac (Qred q)) s) by (intros; apply Rt; constructor; apply lowest_red).
    assert (In : forall z, Qsame s (VInt z) s) by (intros; apply Rt; constructor).
    assert (St : forall z, Qsame s (VStr z) s) by (intros; apply Rt; constructor).
    destruct (get_type v1) eqn:T1; destruct op; auto;
      try (destruct v1; try discriminate);
      try (destruct (ty_eqb (get_type v2) _) eqn:T2; [|auto; fail]);
      try (apply ty_int in T2 as [z2 ->]); try (apply ty_frac in T2 as [z2 ->]);
      try (apply ty_str in T2 as [z2 ->]);
      cbn [get_int get_frac get_str unwrap_o]; wps; cbn [get_int get_frac get_str unwrap_o]; wps; auto; try (apply Fr).
    - destruct (Z.eqb_spec z2 0); [auto|]. unfold ratio_new. destruct z2; [congruence| |]; cbn [unwrap]; wps; apply Fr.
    - destruct (Z.eqb_spec z2 0); auto. wps. apply Rt. constructor.
    - destruct (q_is_zero z2); auto. wps. apply Fr.
    - destruct a as [i t0 vs]. cbn [get_type arr_inner_type] in T1. inversion T1; subst t0. clear T1.
      destruct (most_specific (TArr t) (get_type v2)) as [[u f]|] eqn:Ms; [|auto].
      pose proof (most_specific_spec (TArr t) (get_type v2)) as Sp. rewrite Ms in Sp.
      destruct Sp as [Ls _]. pose proof Ls as [[L1 L2] L3].
      inversion L1; subst.
      destruct v2; cbn [get_type] in L2; try (inversion L2; fail). cbn [get_arr unwrap_o].
      wps. cbn [get_arr unwrap_o]. wps. destruct a as [i2 t2 vs2]. cbn [get_type arr_inner_type arr_values] in *.
      inversion W1; subst. inversion W2; subst.
      apply wp_new_arr; auto.
      + apply Forall_app; auto.
      + rewrite map_app. eapply least_spec_all_app; eauto.
        inversion L2; subst. split; [split; auto|]. intros w [Hw1 Hw2].
        specialize (L3 (TArr w)). assert (K : le_ty (TArr b) (TArr w)); [|inversion K; auto].
        apply L3. split; constructor; auto.
      + intros. wps. repeat split; auto; apply H. }
  destruct (ty_eqb (get_type v1) TInt && ty_eqb (get_type v2) TFrac) eqn:E1.
  { apply andb_true_iff in E1 as [E1 E2]. apply ty_int in E1 as [z1 ->]. apply ty_frac in E2 as [z2 ->].
    cbn [get_int unwrap_o ratio_new unwrap]. do 3 (wps; cbn [unwrap_o ratio_new unwrap]).
    apply (G (VFrac _) (VFrac _)); auto. constructor. apply lowest_red. }
  destruct (ty_eqb (get_type v1) TFrac && ty_eqb (get_type v2) TInt) eqn:E2.
  { apply andb_true_iff in E2 as [E3 E2]. apply ty_frac in E3 as [z1 ->]. apply ty_int in E2 as [z2 ->].
    cbn [get_int unwrap_o ratio_new unwrap]. do 3 (wps; cbn [unwrap_o ratio_new unwrap]).
    apply (G (VFrac _) (VFrac _)); auto. constructor. apply lowest_red. }
  wp1. apply G; auto.
Qed.

Definition okvals (vals : list (value * N * N)) : Prop :=
  Forall (fun x => wfv (fst (fst x)) /\ at_pos T (snd (fst x)) (snd x)) vals.

Lemma eval_low_spec vals : forall v ops s, Inv s -> wfv v -> okvals vals ->
  length vals = length ops -> wp X (eval_low_ops v vals ops) (Qsame s) Er s.
Proof.
  induction vals as [|[[v2 l2] c2] vals IH]; intros v ops s I W O L; destruct ops; try discriminate; cbn [eval_low_ops].
  - wps. repeat split; auto; apply I.
  - inversion O; subst. cbn in H1. wp1. eapply wp_mono; [apply binary_spec; auto; tauto| |auto].
    intros a s' (I' & R & W'). eapply wp_mono; [apply IH; auto| |auto].
    intros a' s'' (? & ? & ?). repeat split; auto; try apply H. congruence.
Qed.

Lemma check_end_spec brace s : Inv s ->
  wp X (check_value_end brace) (fun _ s' => s' = s) Er s.
Proof.
  intros I. unfold check_value_end. wps. destruct (s_rest s) as [|c r] eqn:R; cbn [hd_error]; [wps; auto|].
  destruct (is_value_end_char c).
  - destruct (is_end_delimiter c && _); wps; auto. apply wp_failI; auto. eapply Inv_char; eauto.
  - wps. apply wp_failI; auto. eapply Inv_char; eauto.
Qed.

Lemma assoc_in {V} k (l : list (str * V)) v : assoc k l = Some v -> In (k, v) l.
Proof.
  intros H. apply assoc_some in H as (a & b & -> & _). apply in_app_iff; cbn; auto.
Qed.
Lemma wfps_assoc ps k v : wfps ps -> assoc k ps = Some v -> wfv v.
Proof.
  intros [_ W] H. apply assoc_in in H. rewrite Forall_forall in W. apply W.
  change v with (snd (k, v)). apply in_map; auto.
Qed.
Lemma wfgl_assoc ps k v : wfgl ps -> assoc k ps = Some v -> wfv v.
Proof. intros W H. apply assoc_in in H. red in W. rewrite Forall_forall in W. apply W in H; auto. Qed.

Lemma lookup_spec pairs var g line col s : Inv s -> wfps pairs -> text_at T var line col ->
  wp X (lookup_variable pairs var g line col) (Qsame s) Er s.
Proof.
  intros I W P. unfold lookup_variable.
  assert (Rt : forall v, wfv v -> Qsame s v s) by (intros; repeat split; auto; apply I).
  assert (Se : forall k, wp X (let* o := sentinel k in ret (VObj o)) (Qsame s) Er s).
  { intros k. wp1. apply wp_sent; auto. intros. wps. repeat split; auto; try apply H.
    constructor. apply wfo_empty. }
  destruct (str_eqb var (lit "null")); [wps; apply Rt; constructor|].
  destruct (str_eqb var (lit "true")); [wps; apply Rt; constructor|].
  destruct (str_eqb var (lit "false")); [wps; apply Rt; constructor|].
  destruct (str_eqb var (lit "Obj")); [auto|].
  destruct (str_eqb var (lit "Str")); [auto|].
  destruct (str_eqb var (lit "Arr")); [auto|].
  destruct (str_eqb var (lit "Tup")); [auto|].
  destruct (str_eqb var (lit "@")); [apply wp_failI; auto|].
  destruct g.
  - wps. destruct (assoc var (s_globals s)) eqn:A; [|apply wp_failI; auto].
    wps. apply Rt. eapply wfgl_assoc; eauto. apply I.
  - destruct (assoc var pairs) eqn:A; [|apply wp_failI; auto].
    wps. apply Rt. eapply wfps_assoc; eauto.
Qed.

Lemma located_over e f l c : at_pos T l c -> located T (e_kind (from_over e f l c)).
Proof. intros H. exists e, l, c. auto. Qed.

Lemma wp_over {A} e l c (Q : A -> pstate -> Prop) s : Inv s -> at_pos T l c ->
  wp X (let* f := getfile in raise (from_over e f l c)) Q Er s.
Proof.
  intros I P. wps. apply wp_raise. split; [left; split|].
  - cbn. apply Inv_file; auto.
  - apply located_over; auto.
  - apply Inv_SW; auto.
Qed.

Lemma index_spec get idx line col s : Inv s -> at_pos T line col ->
  (forall i v, get i = OOk v -> wfv v) ->
  wp X (index_by get idx line col) (Qsame s) Er s.
Proof.
  intros I P H. unfold index_by. destruct idx; try (apply wp_failI; auto; fail).
  destruct (to_usize z); [|apply wp_failI; auto].
  destruct (get n) eqn:G; [wps; repeat split; eauto; apply I|]. apply wp_over; auto.
Qed.

Lemma nth_wf vs i v : Forall wfv vs -> nth_error vs i = Some v -> wfv v.
Proof. intros W H. rewrite Forall_forall in W. apply W. eapply nth_error_In; eauto. Qed.
Lemma arr_get_wf a i v : wfv (VArr a) -> arr_get a i = OOk v -> wfv v.
Proof.
  intros W. unfold arr_get. destruct (_ <=? _); [discriminate|].
  destruct (nth_error _ _) eqn:E; [|discriminate]. intros H; inversion H; subst.
  inversion W; subst. eapply nth_wf; eauto.
Qed.
Lemma tup_get_wf a i v : wfv (VTup a) -> tup_get a i = OOk v -> wfv v.
Proof.
  intros W. unfold tup_get. destruct (_ <=? _); [discriminate|].
  destruct (nth_error _ _) eqn:E; [|discriminate]. intros H; inversion H; subst.
  inversion W; subst. eapply nth_wf; eauto.
Qed.
Lemma obj_pairs_wf o : wfv (VObj o) -> wfps (obj_pairs o).
Proof. intros W. inversion W as [| | | | | | |? Wo]; subst. inversion Wo; subst. split; auto. Qed.

Lemma token_spec v line col s : Inv s -> at_pos T line col ->
  wp X (include_token v line col) (fun _ s' => Inv s' /\ s_rest s' = s_rest s) Er s.
Proof.
  intros I P. unfold include_token. destruct v; try (apply wp_failI; auto; fail); [wps; auto|].
  wp1. apply wp_sent; auto. intros s1 i1 I1 R1. destruct (obj_ptr_eq _ _); [wps; auto|].
  wp1. apply wp_sent; auto. intros s2 i2 I2 R2. destruct (obj_ptr_eq _ _); [wps; split; auto; congruence|].
  wp1. apply wp_sent; auto. intros s3 i3 I3 R3. destruct (obj_ptr_eq _ _); [wps; split; auto; congruence|].
  wp1. apply wp_sent; auto. intros s4 i4 I4 R4. destruct (obj_ptr_eq _ _); [wps; split; auto; congruence|].
  apply wp_failI; auto.
Qed.

(** *** The recursion *)
Notation pv := (parse_value fs load_inc).

Definition S_value n := forall pairs line col depth brace first s, Inv s -> wfps pairs ->
  s_rest s <> [] -> line = s_line s -> col = s_col s -> (4 * len s + 2 <= n)%nat ->
  wp X (pv n pairs line col depth brace first) (Qlt s) Er s.
Definition S_ops n := forall pairs depth brace vals ops s, Inv s -> wfps pairs ->
  okvals vals -> length vals = S (length ops) -> (4 * len s + 1 <= n)%nat ->
  wp X (parse_ops fs load_inc n pairs depth brace vals ops)
    (fun p s' => Inv s' /\ (len s' <= len s)%nat /\ okvals (fst p) /\
                 length (fst p) = S (length (snd p))) Er s.
Definition op_char op := match op with UPlus => c_plus | UMinus => c_minus end.
Definition S_unary n := forall pairs depth brace op r s, Inv s -> wfps pairs ->
  s_rest s = op_char op :: r -> (4 * len s + 1 <= n)%nat ->
  wp X (parse_unary_op fs load_inc n pairs depth brace op) (Qlt s) Er s.
Definition S_obj n := forall depth r s, Inv s -> s_rest s = c_lbrace :: r -> (4 * len s + 1 <= n)%nat ->
  wp X (parse_obj fs load_inc n depth) (Qlt s) Er s.
Definition okpp (ps : list pair_t) (par : option obj) : Prop :=
  wfps ps /\ forall p, par = Some p -> wfo p.
Definition S_pairs n := forall ps par depth brace s, Inv s -> okpp ps par -> s_rest s <> [] ->
  (4 * len s + 2 <= n)%nat ->
  wp X (pairs_loop fs load_inc n ps par depth brace)
    (fun p s' => Inv s' /\ (len s' <= len s)%nat /\ okpp (fst p) (snd p)) Er s.
Definition S_pair n := forall ps par depth brace s, Inv s -> okpp ps par -> s_rest s <> [] ->
  (4 * len s + 1 <= n)%nat ->
  wp X (parse_field_value_pair fs load_inc n ps par depth brace)
    (fun p s' => Inv s' /\ (len s' < len s)%nat /\ okpp (snd (fst p)) (snd p) /\
       (fst (fst p) = true -> s_rest s' <> [])) Er s.
Definition S_arr n := forall pairs depth r s, Inv s -> wfps pairs -> s_rest s = c_lbrack :: r ->
  (4 * len s + 1 <= n)%nat ->
  wp X (parse_arr fs load_inc n pairs depth) (Qlt s) Er s.
Definition S_arrl n := forall pairs depth vs t any s, Inv s -> wfps pairs -> Forall wfv vs ->
  least_spec_all (map get_type vs) t -> any = has_any t -> (4 * len s + 3 <= n)%nat ->
  wp X (arr_loop fs load_inc n pairs depth vs t any)
    (fun p s' => Inv s' /\ (len s' <= len s)%nat /\ Forall wfv (fst p) /\
       least_spec_all (map get_type (fst p)) (snd p)) Er s.
Definition S_tup n := forall pairs depth r s, Inv s -> wfps pairs -> s_rest s = c_lparen :: r ->
  (4 * len s + 1 <= n)%nat ->
  wp X (parse_tup fs load_inc n pairs depth) (Qlt s) Er s.
Definition S_tupl n := forall pairs depth vs s, Inv s -> wfps pairs -> Forall wfv vs ->
  (4 * len s + 3 <= n)%nat ->
  wp X (tup_loop fs load_inc n pairs depth vs)
    (fun p s' => Inv s' /\ (len s' <= len s)%nat /\ Forall wfv p) Er s.
Definition S_var n := forall pairs line col depth brace c r s, Inv s -> wfps pairs ->
  s_rest s = c :: r -> is_valid_field_char c true || (c =? c_at) || is_numeric_char c = true ->
  line = s_line s -> col = s_col s -> (4 * len s + 1 <= n)%nat ->
  wp X (parse_variable fs load_inc n pairs line col depth brace) (Qlt s) Er s.
Definition S_inc n := forall pairs depth r s, Inv s -> wfps pairs -> s_rest s = c_lt :: r ->
  (4 * len s + 1 <= n)%nat ->
  wp X (parse_include fs load_inc n pairs depth) (Qlt s) Er s.

Definition S_all n := S_value n /\ S_ops n /\ S_unary n /\ S_obj n /\ S_pairs n /\ S_pair n /\
  S_arr n /\ S_arrl n /\ S_tup n /\ S_tupl n /\ S_var n /\ S_inc n.

Lemma wp_maxdepth {A} (Q : A -> pstate -> Prop) s : Inv s ->
  wp X (let* '(l, k) := getpos in fail (MaxDepth l k)) Q Er s.
Proof. intros I. wps. apply wp_failI; auto. apply Inv_pos; auto. Qed.
Lemma wp_closing {A} b c r (Q : A -> pstate -> Prop) s : Inv s -> s_rest s = c :: r ->
  wp X (let* '(l, k) := getpos in fail (InvalidClosingBracket b c l k)) Q Er s.
Proof. intros I R. wps. apply wp_failI; auto. eapply Inv_char; eauto. Qed.

Lemma wfps_nil : wfps [].
Proof. repeat split; constructor. Qed.

Section Step.
Variable n : nat.
Hypothesis IHn : S_all n.

Lemma step_value : S_value (S n).
Proof.
  destruct IHn as (Hv & Hops & Hun & Ho & Hps & Hp & Ha & Hal & Ht & Htl & Hvar & Hi).
  intros pairs line col depth brace first s I W R El Ec Hf. subst line col. cbn [parse_value].
  destruct (s_rest s) as [|c r] eqn:Rs; [congruence|]. wp1. eapply wp_peek_unwrap; eauto. wp1.
  assert (K : forall v s', Qlt s v s' ->
    wp X (if first then
        let* '(vals, ops) := parse_ops fs load_inc n pairs depth brace [(v, s_line s, s_col s)] [] in
        let* _ := check_value_end brace in
        match vals with
        | [] => panic
        | (val1, _, _) :: vals' => eval_low_ops val1 vals' ops
        end
      else ret v) (Qlt s) Er s').
  { intros v s1 (I1 & L1 & W1). destruct first; [|wps; repeat split; auto; apply I1].
    wp1. eapply wp_mono; [apply Hops; auto| |auto].
    - constructor; [|constructor]. cbn. split; auto. apply Inv_pos; auto.
    - lia.
    - intros [vals ops] s2 (I2 & L2 & Ok & Ln). cbn [fst snd] in *. wp1.
      eapply wp_mono; [apply check_end_spec; auto| |auto].
      intros _ s3 ->. destruct vals as [|[[v1 l1] c1] vals]; [discriminate|].
      inversion Ok; subst. cbn in H1. eapply wp_mono; [apply eval_low_spec; auto; tauto| |auto].
      intros v' s4 (I4 & R4 & W4). split; auto. split; auto. rewrite (len_rest _ _ R4). lia. }
  assert (Mono : forall m : M value, wp X m (Qlt s) Er s -> wp X m (fun a s' =>
    wp X (if first then
        let* '(vals, ops) := parse_ops fs load_inc n pairs depth brace [(a, s_line s, s_col s)] [] in
        let* _ := check_value_end brace in
        match vals with
        | [] => panic
        | (val1, _, _) :: vals' => eval_low_ops val1 vals' ops
        end
      else ret a) (Qlt s) Er s') Er s).
  { intros m H. eapply wp_mono; [exact H|auto|auto]. }
  apply Mono. clear Mono K.
  destruct (N.eqb_spec c 34); [subst; eapply parse_str_spec; eauto|].
  destruct (N.eqb_spec c 123); [subst; eapply Ho; eauto; lia|].
  destruct (N.eqb_spec c 91); [subst; eapply Ha; eauto; lia|].
  destruct (N.eqb_spec c 40); [subst; eapply Ht; eauto; lia|].
  destruct (N.eqb_spec c 60); [subst; eapply Hi; eauto; lia|].
  destruct (N.eqb_spec c 43); [subst; eapply Hun; eauto; lia|].
  destruct (N.eqb_spec c 45); [subst; eapply Hun; eauto; lia|].
  destruct (is_numeric_char c) eqn:Nc; [eapply parse_numeric_spec; eauto; apply Inv_pos; auto|].
  destruct (is_valid_field_char c true || (c =? 64)) eqn:Vc.
  - eapply Hvar; eauto; [rewrite Vc; auto|lia].
  - apply wp_failI; auto. eapply Inv_char; eauto.
Qed.

Lemma pop_back_spec {A} (l : list A) : match pop_back l with
  | Some (l', x) => l = l' ++ [x] | None => l = [] end.
Proof.
  unfold pop_back. destruct (rev l) as [|x r] eqn:E.
  - apply (f_equal (@rev A)) in E. rewrite rev_involutive in E. auto.
  - apply (f_equal (@rev A)) in E. rewrite rev_involutive in E. auto.
Qed.

Lemma step_ops : S_ops (S n).
Proof.
  destruct IHn as (Hv & Hops & Hun & Ho & Hps & Hp & Ha & Hal & Ht & Htl & Hvar & Hi).
  intros pairs depth brace vals ops s I W Ok Ln Hf. cbn [parse_ops]. wps.
  destruct (s_rest s) as [|c r] eqn:R; cbn [hd_error].
  { wps. cbn. repeat split; auto; apply I. }
  destruct (get_op c) as [op|]; [|wps; cbn; repeat split; auto; apply I].
  wp1. eapply wp_next_cons; eauto. pose proof (Inv_adv1 _ _ _ R I) as I1.
  pose proof (len_adv1 _ _ _ R) as L1. set (s1 := adv1 s c r) in *. wps.
  destruct (s_rest s1) as [|c1 r1] eqn:R1; cbn [hd_error].
  { apply wp_endI; auto. }
  wps. eapply wp_mono; [apply Hv; auto; [congruence|lia]| |auto].
  intros v2 s2 (I2 & L2 & W2). destruct (is_priority op).
  - pose proof (pop_back_spec vals) as Pb. destruct (pop_back vals) as [[vals' [[v1 l1] c1']]|]; [|subst; discriminate].
    subst vals. apply Forall_app in Ok as [Ok1 Ok2]. inversion Ok2 as [|? ? [Ov Op] _]; subst. cbn in Ov, Op.
    wp1. eapply wp_mono; [apply binary_spec; auto; apply Inv_pos; auto| |auto].
    intros v3 s3 (I3 & R3 & W3). pose proof (len_rest _ _ R3).
    eapply wp_mono; [apply Hops; auto| |auto].
    + apply Forall_app; split; auto.
    + rewrite app_length in *. cbn in *. lia.
    + lia.
    + cbn beta. intros p s4 (? & ? & ? & ?). split; auto. split; auto. lia.
  - eapply wp_mono; [apply Hops; auto| |auto].
    + apply Forall_app; split; auto. constructor; auto. split; auto. apply Inv_pos; auto.
    + rewrite !app_length. cbn. lia.
    + lia.
    + cbn beta. intros p s4 (? & ? & ? & ?). split; auto. split; auto. lia.
Qed.

Lemma step_unary : S_unary (S n).
Proof.
  destruct IHn as (Hv & Hops & Hun & Ho & Hps & Hp & Ha & Hal & Ht & Htl & Hvar & Hi).
  intros pairs depth brace op r s I W R Hf. cbn [parse_unary_op]. wp1. eapply wp_next_cons; eauto.
  pose proof (Inv_adv1 _ _ _ R I) as I1. pose proof (len_adv1 _ _ _ R) as L1.
  set (s1 := adv1 s _ r) in *. wp1. apply wp_assert_true; [destruct op; reflexivity|]. wps.
  destruct (s_rest s1) as [|c1 r1] eqn:R1; cbn [hd_error].
  { apply wp_failI; auto. apply Inv_end; auto. }
  wp1. eapply wp_mono; [apply Hv; auto; [congruence|lia]| |auto].
  intros v2 s2 (I2 & L2 & W2). eapply wp_mono; [apply unary_spec; auto; apply Inv_pos; auto| |auto].
  intros v3 s3 (I3 & R3 & W3). pose proof (len_rest _ _ R3). split; auto. split; auto. lia.
Qed.

Lemma step_obj : S_obj (S n).
Proof.
  destruct IHn as (Hv & Hops & Hun & Ho & Hps & Hp & Ha & Hal & Ht & Htl & Hvar & Hi).
  intros depth r s I R Hf. cbn [parse_obj]. destruct (MAX_DEPTH <? depth); [apply wp_maxdepth; auto|].
  wp1. eapply wp_next_unwrap; eauto.
  pose proof (Inv_adv1 _ _ _ R I) as I1. pose proof (len_adv1 _ _ _ R) as L1.
  set (s1 := adv1 s _ r) in *. wp1. apply wp_assert_true; [reflexivity|]. wp1.
  apply wp_fcI; auto; [|intros; cbn [negb]; apply wp_endI; auto].
  intros s2 c2 r2 I2 L2 R2 _ _. cbn [negb]. wp1.
  eapply wp_mono; [apply Hps; auto| |auto].
  - split; [apply wfps_nil|discriminate].
  - congruence.
  - lia.
  - intros [ps par] s3 (I3 & L3 & Ok1 & Ok2). cbn [fst snd] in *. wp1. apply wp_new_obj; auto.
    intros s4 o I4 R4 W4. wps. pose proof (len_rest _ _ R4). split; auto. split; [lia|]. constructor; auto.
Qed.

Lemma step_pairs : S_pairs (S n).
Proof.
  destruct IHn as (Hv & Hops & Hun & Ho & Hps & Hp & Ha & Hal & Ht & Htl & Hvar & Hi).
  intros ps par depth brace s I Ok R Hf. cbn [pairs_loop]. wp1.
  eapply wp_mono; [apply Hp; auto; lia| |auto].
  intros [[more ps'] par'] s1 (I1 & L1 & Ok1 & Hm). cbn [fst snd] in *. destruct more.
  - eapply wp_mono; [apply Hps; auto; lia| |auto]. cbn beta.
    intros p s2 (I2 & L2 & Ok2). split; auto. split; auto. lia.
  - wps. split; auto. split; auto. lia.
Qed.

Lemma step_pair : S_pair (S n).
Proof.
  destruct IHn as (Hv & Hops & Hun & Ho & Hps & Hp & Ha & Hal & Ht & Htl & Hvar & Hi).
  intros ps par depth brace s I [Ok1 Ok2] R Hf. cbn [parse_field_value_pair].
  destruct (s_rest s) as [|c r] eqn:Rs; [congruence|]. wp1. eapply wp_peek_unwrap; eauto.
  destruct ((c =? 125) && _).
  { wp1. eapply wp_next_cons; eauto. wps. cbn [fst snd]. pose proof (len_adv1 _ _ _ Rs).
    split; [apply Inv_adv1; auto|]. split; [lia|]. split; [split; auto|discriminate]. }
  destruct (is_end_delimiter c); [eapply wp_closing; eauto|].
  wp1. apply wp_getpos. wp1.
  eapply wp_mono; [eapply parse_field_spec; eauto| |auto].
  intros [f ft] s1 (I1 & L1 & Tx & Gl & Hl & Hpar). cbn [fst snd] in *. wp1.
  assert (K : (ft = FRegular -> ~ In f (map fst ps)) -> wp X
       (let* found := find_char in
        if negb found then let* l := getline in fail (UnexpectedEnd l)
        else
          let* '(value_line, value_col) := getpos in
          let* v := parse_value fs load_inc n ps value_line value_col depth brace true in
          let* '(ps', par') :=
            (match ft with
             | FGlobal => let* _ := insert_global f v in ret (ps, par)
             | FParent =>
                 match get_obj v with
                 | OOk o => ret (ps, Some o)
                 | OErr e => let* f := getfile in raise (from_over e f value_line value_col)
                 end
             | FRegular => ret (ps ++ [(f, v)], par)
             end) in
          let* found := find_char in
          if negb found then
            match brace with
            | Some _ => let* l := getline in fail (UnexpectedEnd l)
            | None => ret (false, ps', par')
            end
          else ret (true, ps', par'))
      (fun p s' => Inv s' /\ (len s' < len s)%nat /\ okpp (snd (fst p)) (snd p) /\
       (fst (fst p) = true -> s_rest s' <> [])) Er s1).
  { intros Hdup. wp1. apply wp_fcI; auto; [|intros; cbn [negb]; apply wp_endI; auto].
    intros s2 c2 r2 I2 L2 R2 _ _. cbn [negb]. wp1. apply wp_getpos. wp1.
    eapply wp_mono; [apply Hv; auto; [congruence|lia]| |auto].
    intros v s3 (I3 & L3 & W3). wp1.
    assert (K : forall ps' par' s4, Inv s4 -> len s4 = len s3 -> okpp ps' par' -> wp X
        (let* found := find_char in
          if negb found then
            match brace with
            | Some _ => let* l := getline in fail (UnexpectedEnd l)
            | None => ret (false, ps', par')
            end
          else ret (true, ps', par'))
        (fun p s' => Inv s' /\ (len s' < len s)%nat /\ okpp (snd (fst p)) (snd p) /\
       (fst (fst p) = true -> s_rest s' <> [])) Er s4).
    { intros ps' par' s4 I4 L4 Ok. wp1. apply wp_fcI; auto.
      - intros s5 c5 r5 I5 L5 R5 _ _. cbn [negb]. wps. cbn [fst snd]. split; auto. split; [lia|].
        split; auto. congruence.
      - intros s5 I5 R5. cbn [negb]. destruct brace; [apply wp_endI; auto|]. wps. cbn [fst snd].
        split; auto. split; [|split; auto; discriminate]. unfold len at 1. rewrite R5. cbn [length]. lia. }
    destruct ft.
    - wp1. unfold wp at 1, insert_global at 1. wp1. apply K; auto; [|split; auto].
      destruct I3 as (? & ? & ? & ?). repeat split; auto. cbn. constructor; auto.
    - destruct v; cbn [get_obj]; try (apply wp_over; auto; apply Inv_pos; auto; fail).
      wp1. apply K; auto. split; auto. intros p E; inversion E; subst. inversion W3; auto.
    - wp1. apply K; auto. split; auto. destruct Ok1 as [[N1 N2] Wv]. split; [split|].
      + rewrite map_app. cbn. apply NoDup_snoc; auto.
      + rewrite map_app. apply Forall_app; split; auto. cbn. auto.
      + rewrite map_app. apply Forall_app; split; auto. cbn. auto. }
  destruct ft.
  - wps. destruct (assoc f (s_globals s1)); [apply wp_failI; auto|]. wp1. apply K. discriminate.
  - destruct par; [|wp1; apply K; discriminate]. apply wp_failI; auto. cbn [located]. rewrite <- Hpar; auto.
  - destruct (existsb (fun p => str_eqb (fst p) f) ps) eqn:Ex; [apply wp_failI; auto|]. wp1. apply K. intros _ Hin.
    apply in_map_iff in Hin as ([f' v'] & E1 & E2). cbn in E1. subst f'.
    assert (existsb (fun p => str_eqb (fst p) f) ps = true); [|congruence].
    apply existsb_exists. exists (f, v'). split; auto. cbn. apply str_eqb_refl.
Qed.

Lemma step_arr : S_arr (S n).
Proof.
  destruct IHn as (Hv & Hops & Hun & Ho & Hps & Hp & Ha & Hal & Ht & Htl & Hvar & Hi).
  intros pairs depth r s I W R Hf. cbn [parse_arr]. destruct (MAX_DEPTH <? depth); [apply wp_maxdepth; auto|].
  wp1. eapply wp_next_unwrap; eauto.
  pose proof (Inv_adv1 _ _ _ R I) as I1. pose proof (len_adv1 _ _ _ R) as L1.
  set (s1 := adv1 s _ r) in *. wp1. apply wp_assert_true; [reflexivity|]. wp1.
  eapply wp_mono; [apply Hal; auto; [apply least_spec_all_nil|lia]| |auto].
  intros [vs t] s3 (I3 & L3 & Ok1 & Ok2). cbn [fst snd] in *. wp1. apply wp_new_arr; auto.
  intros s4 o I4 R4 W4. wps. pose proof (len_rest _ _ R4). split; auto. split; [lia|auto].
Qed.

Lemma step_arrl : S_arrl (S n).
Proof.
  destruct IHn as (Hv & Hops & Hun & Ho & Hps & Hp & Ha & Hal & Ht & Htl & Hvar & Hi).
  intros pairs depth vs t any s I W Wvs Ls Ea Hf. cbn [arr_loop]. wp1.
  apply wp_fcI; auto; [|intros; cbn [negb]; apply wp_endI; auto].
  intros s1 c r I1 L1 R1 _ _. cbn [negb]. wp1. eapply wp_peek_unwrap; eauto.
  destruct (N.eqb_spec c 93).
  { wp1. eapply wp_next_cons; eauto. wps. cbn [fst snd]. pose proof (len_adv1 _ _ _ R1).
    split; [apply Inv_adv1; auto|]. split; [lia|]. auto. }
  destruct (is_end_delimiter c); [eapply wp_closing; eauto|].
  wp1. apply wp_getpos. wp1. eapply wp_mono; [apply Hv; auto; [congruence|lia]| |auto].
  intros v s3 (I3 & L3 & W3).
  pose proof (arr_check_step_spec (map get_type vs) t any (get_type v) Ls Ea) as Hc.
  destruct (arr_check_step t any (get_type v)) as [[t' any']|[t1 t2]].
  - destruct Hc as [Hc1 Hc2]. eapply wp_mono; [apply Hal; auto| |auto].
    + apply Forall_app; auto.
    + rewrite map_app. auto.
    + lia.
    + cbn beta. intros p s4 (? & ? & ?). split; auto. split; auto. lia.
  - apply wp_failI; auto. apply Inv_pos; auto.
Qed.

Lemma step_tup : S_tup (S n).
Proof.
  destruct IHn as (Hv & Hops & Hun & Ho & Hps & Hp & Ha & Hal & Ht & Htl & Hvar & Hi).
  intros pairs depth r s I W R Hf. cbn [parse_tup]. destruct (MAX_DEPTH <? depth); [apply wp_maxdepth; auto|].
  wp1. eapply wp_next_unwrap; eauto.
  pose proof (Inv_adv1 _ _ _ R I) as I1. pose proof (len_adv1 _ _ _ R) as L1.
  set (s1 := adv1 s _ r) in *. wp1. apply wp_assert_true; [reflexivity|]. wp1.
  eapply wp_mono; [apply Htl; auto; lia| |auto].
  intros vs s3 (I3 & L3 & Ok1). wp1. apply wp_new_tup; auto.
  intros s4 o I4 R4 W4. wps. pose proof (len_rest _ _ R4). split; auto. split; [lia|auto].
Qed.

Lemma step_tupl : S_tupl (S n).
Proof.
  destruct IHn as (Hv & Hops & Hun & Ho & Hps & Hp & Ha & Hal & Ht & Htl & Hvar & Hi).
  intros pairs depth vs s I W Wvs Hf. cbn [tup_loop]. wp1.
  apply wp_fcI; auto; [|intros; cbn [negb]; apply wp_endI; auto].
  intros s1 c r I1 L1 R1 _ _. cbn [negb]. wp1. eapply wp_peek_unwrap; eauto.
  destruct (N.eqb_spec c 41).
  { wp1. eapply wp_next_cons; eauto. wps. pose proof (len_adv1 _ _ _ R1).
    split; [apply Inv_adv1; auto|]. split; [lia|]. auto. }
  destruct (is_end_delimiter c); [eapply wp_closing; eauto|].
  wp1. apply wp_getpos. wp1. eapply wp_mono; [apply Hv; auto; [congruence|lia]| |auto].
  intros v s3 (I3 & L3 & W3). eapply wp_mono; [apply Htl; auto| |auto].
  - apply Forall_app; auto.
  - lia.
  - cbn beta. intros p s4 (? & ? & ?). split; auto. split; auto. lia.
Qed.

Lemma step_var : S_var (S n).
Proof.
  destruct IHn as (Hv & Hops & Hun & Ho & Hps & Hp & Ha & Hal & Ht & Htl & Hvar & Hi).
  intros pairs line col depth brace c r s I W R Hc El Ec Hf. subst line col. cbn [parse_variable].
  wp1. eapply wp_peek_unwrap; eauto. wp1.
  match goal with |- wp _ _ (fun a s' => wp X (@?k a) ?Q ?E s') ?E s => set (K := k) end.
  assert (G : forall s1 pre0, Inv s1 -> moved_by pre0 s s1 -> (pre0 = [] \/ pre0 = [64]) ->
    (pre0 = [] -> c <> 64) -> wp X (K pre0) (Qlt s) Er s1).
  { intros s1 pre0 I1 M1 Hp0 Hp1. unfold K. cbv beta. wp1. unfold wp at 1.
    destruct (scan_var (s_rest s1) (s_line s1) (s_col s1) pre0) as [x [[r' l'] k']] eqn:Sc.
    apply scan_var_spec in Sc as (con & Sc & H). apply scanned_moved in Sc.
    pose proof (moved_by_trans _ _ _ _ _ M1 Sc) as M.
    pose proof (Inv_moved _ _ I1 (ex_intro (fun c => moved_by c _ _) _ Sc)) as I2.
    pose proof (moved_by_len _ _ _ M) as L2. set (s2 := set_stream s1 r' l' k') in *.
    destruct x as [w|w|d].
    - destruct H as [-> Hcon]. wp1. wp1.
      assert (Hlt : (len s2 < len s)%nat).
      { rewrite L2, app_length. destruct Hp0 as [-> | ->]; [|cbn; lia].
        destruct con; [|cbn; lia]. exfalso. specialize (Hcon eq_refl).
        destruct M1 as (M1 & _). cbn in M1. rewrite <- M1, R in Hcon.
        destruct Hcon as [|(? & ? & E & V)]; [discriminate|]. inversion E; subst.
        destruct (N.eqb_spec x 64); [apply Hp1; auto|]. rewrite orb_false_r in Hc.
        apply orb_true_iff in Hc as [Hc|Hc];
          [rewrite (field_not_end _ _ Hc) in V|rewrite (numeric_not_end _ Hc) in V]; discriminate. }
      wp1. eapply wp_mono; [apply lookup_spec; auto| |auto].
      + destruct I as (_ & It & _). destruct M as (M & _). eapply in_text_text; eauto.
      + intros v s3 (I3 & R3 & W3). wps. pose proof (len_rest _ _ R3). split; auto. split; [lia|auto].
    - destruct H as (u & -> & ->). wps.
      destruct (s_rest s2) as [|c2 r2] eqn:R2; cbn [hd_error]; [apply wp_endI; auto|].
      assert (Hlt : (len s2 < len s)%nat).
      { rewrite L2, !app_length. cbn [length]. lia. }
      assert (Tx : text_at T (pre0 ++ u) (s_line s) (s_col s)).
      { destruct I as (_ & It & _). destruct M as (M & _). eapply in_text_text; eauto.
        rewrite M, <- !app_assoc. reflexivity. }
      match goal with |- wp _ _ (fun a s' => wp X (@?k a) ?Q ?E s') ?E _ => set (K2 := k) end.
      assert (G2 : forall g, (g = false -> is_valid_field_char c2 true || (c2 =? 64) || is_numeric_char c2 = true) ->
        (g = true -> c2 = 64) -> wp X (K2 (pre0 ++ u, true, g)) (Qlt s) Er s2).
      { intros g Hg Hg2. unfold K2. wp1. eapply wp_mono; [apply lookup_spec; auto| |auto].
        intros v s3 (I3 & R3 & W3). pose proof (len_rest _ _ R3) as L3. rewrite R2 in R3.
        destruct v; try (apply wp_failI; auto; apply Inv_pos; auto; fail).
        - wp1. apply wp_getpos. wp1.
          eapply wp_mono; [apply Hv; auto; [congruence|lia]| |auto].
          intros v4 s4 (I4 & L4 & W4). eapply wp_mono; [apply index_spec; auto| |auto].
          + apply Inv_pos; auto.
          + intros i v. apply arr_get_wf; auto.
          + intros v5 s5 (I5 & R5 & W5). pose proof (len_rest _ _ R5). split; auto. split; [lia|auto].
        - wp1. apply wp_getpos. wp1.
          eapply wp_mono; [apply Hv; auto; [congruence|lia]| |auto].
          intros v4 s4 (I4 & L4 & W4). eapply wp_mono; [apply index_spec; auto| |auto].
          + apply Inv_pos; auto.
          + intros i v. apply tup_get_wf; auto.
          + intros v5 s5 (I5 & R5 & W5). pose proof (len_rest _ _ R5). split; auto. split; [lia|auto].
        - wp1. apply wp_getpos. destruct g.
          + apply wp_failI; auto. rewrite Hg2 in R3 by auto. eapply Inv_char; eauto.
          + eapply wp_mono; [eapply Hvar; eauto| |auto].
            * apply obj_pairs_wf; auto.
            * lia.
            * intros v5 s5 (I5 & R5 & W5). split; auto. split; [lia|auto]. }
      destruct (N.eqb_spec c2 64).
      + wp1. apply (G2 true); auto. discriminate.
      + destruct (is_valid_field_char c2 true || is_numeric_char c2) eqn:E2.
        * wp1. apply (G2 false); [|discriminate]. intros _. rewrite orb_false_r. auto.
        * wps. apply wp_failI; auto. eapply Inv_char; eauto.
    - destruct H as [r0 H]. wps. apply wp_failI; auto. eapply Inv_char; eauto. }
  destruct (N.eqb_spec c 64).
  - wp1. eapply wp_next_unwrap; eauto. wp1. subst c. apply (G (adv1 s 64 r) [64]); auto.
    + apply Inv_adv1; auto.
    + apply moved_by_adv1; auto.
    + discriminate.
  - wp1. apply (G s []); auto using moved_by_nil.
Qed.

Lemma step_inc : S_inc (S n).
Proof.
  destruct IHn as (Hv & Hops & Hun & Ho & Hps & Hp & Ha & Hal & Ht & Htl & Hvar & Hi).
  intros pairs depth r s I W R Hf. cbn [parse_include]. destruct (MAX_DEPTH <? depth); [apply wp_maxdepth; auto|].
  wp1. eapply wp_next_unwrap; eauto.
  pose proof (Inv_adv1 _ _ _ R I) as I1. pose proof (len_adv1 _ _ _ R) as L1.
  set (s1 := adv1 s _ r) in *. wp1. apply wp_assert_true; [reflexivity|]. wp1.
  apply wp_fcI; auto; [|intros; cbn [negb]; apply wp_endI; auto].
  intros s2 c2 r2 I2 L2 R2 _ _. cbn [negb]. wp1. apply wp_getpos. wp1.
  eapply wp_mono; [apply Hv; auto; [congruence|lia]| |auto].
  intros v s3 (I3 & L3 & W3). wp1.
  eapply wp_mono; [apply token_spec; auto; apply Inv_pos; auto| |auto].
  intros tok s4 (I4 & R4). pose proof (len_rest _ _ R4) as L4. wp1.
  match goal with |- wp _ _ (fun a s' => wp X (@?k a) ?Q ?E s') ?E _ => set (K := k) end.
  assert (G : forall ity v line col s5, Inv s5 -> (len s5 <= len s4)%nat -> at_pos T line col -> 
    wp X (K (ity, v, line, col)) (Qlt s) Er s5).
  { clear v W3 tok. intros ity v line col s5 I5 L5 P. unfold K. wp1.
    apply wp_fcI; auto; [|intros; cbn [negb]; apply wp_endI; auto].
    intros s6 c6 r6 I6 L6 R6 Hw _. cbn [negb]. wp1. eapply wp_next_unwrap; eauto.
    pose proof (Inv_adv1 _ _ _ R6 I6) as I7. pose proof (len_adv1 _ _ _ R6) as L7.
    destruct (N.eqb_spec c6 62); cbn [negb].
    - destruct v; try (apply wp_failI; auto; fail).
      eapply wp_mono; [apply finish_spec; auto| |auto].
      intros v8 s8 (I8 & R8 & W8). pose proof (len_rest _ _ R8). split; auto. split; [lia|auto].
    - wps. apply wp_col_minus_1; auto. apply wp_failI; auto. cbn [located].
      destruct (last_consumed s6 (adv1 s6 c6 r6) [] c6 I6) as [[_ ?]|[-> _]]; auto.
      + apply moved_by_adv1; auto.
      + discriminate. }
  destruct tok.
  - wp1. apply wp_fcI; auto; [|intros; cbn [negb]; apply wp_endI; auto].
    intros s5 c5 r5 I5 L5 R5 _ _. cbn [negb]. wp1. apply wp_getpos. wp1.
    eapply wp_mono; [apply Hv; auto; [congruence|lia]| |auto].
    intros v6 s6 (I6 & L6 & W6). wp1. apply G; auto; [lia|apply Inv_pos; auto].
  - wp1. apply G; auto. apply Inv_pos; auto.
Qed.
End Step.

Lemma S_all_n n : S_all n.
Proof.
  induction n as [|n IH].
  - unfold S_all, S_value, S_ops, S_unary, S_obj, S_pairs, S_pair, S_arr, S_arrl, S_tup, S_tupl, S_var, S_inc.
    repeat split; intros; lia.
  - split; [apply step_value; auto|]. split; [apply step_ops; auto|]. split; [apply step_unary; auto|].
    split; [apply step_obj; auto|]. split; [apply step_pairs; auto|]. split; [apply step_pair; auto|].
    split; [apply step_arr; auto|]. split; [apply step_arrl; auto|]. split; [apply step_tup; auto|].
    split; [apply step_tupl; auto|]. split; [apply step_var; auto|]. apply step_inc; auto.
Qed.

(** *** Streams *)
Lemma obj_stream_spec n s : Inv s -> (4 * len s + 2 <= n)%nat ->
  wp X (parse_obj_stream fs load_inc n) (fun o s' => Inv s' /\ wfo o) Er s.
Proof.
  intros I Hn. unfold parse_obj_stream. wp1. apply wp_fcI; auto.
  - intros s1 c r I1 L1 R1 _ _. cbn [negb]. wp1.
    destruct (S_all_n n) as (_ & _ & _ & _ & Hps & _).
    eapply wp_mono; [apply Hps; auto| |auto].
    + split; [apply wfps_nil|discriminate].
    + congruence.
    + lia.
    + intros [ps par] s2 (I2 & L2 & Ok1 & Ok2). apply wp_new_obj; auto.
  - intros s1 I1 R1. cbn [negb]. apply wp_new_obj; auto; [apply wfps_nil|discriminate].
Qed.

Lemma arr_file_spec n : forall vs t any s, Inv s -> Forall wfv vs ->
  least_spec_all (map get_type vs) t -> any = has_any t -> (4 * len s + 3 <= n)%nat ->
  wp X (arr_file_loop fs load_inc n vs t any)
    (fun p s' => Inv s' /\ Forall wfv (fst p) /\
       least_spec_all (map get_type (fst p)) (snd p)) Er s.
Proof.
  induction n as [|n IH]; intros vs t any s I Wvs Ls Ea Hf; [lia|]. cbn [arr_file_loop]. wp1.
  apply wp_fcI; auto; [|intros; cbn [negb]; wps; auto].
  intros s1 c r I1 L1 R1 _ _. cbn [negb]. wp1. apply wp_getpos. wp1.
  destruct (S_all_n n) as (Hv & _).
  eapply wp_mono; [apply Hv; auto; [apply wfps_nil|congruence|lia]| |auto].
  intros v s3 (I3 & L3 & W3).
  pose proof (arr_check_step_spec (map get_type vs) t any (get_type v) Ls Ea) as Hc.
  destruct (arr_check_step t any (get_type v)) as [[t' any']|[t1 t2]].
  - destruct Hc as [Hc1 Hc2]. apply IH; auto.
    + apply Forall_app; auto.
    + rewrite map_app. auto.
    + lia.
  - apply wp_failI; auto. apply Inv_pos; auto.
Qed.

Lemma tup_file_spec n : forall vs s, Inv s -> Forall wfv vs -> (4 * len s + 3 <= n)%nat ->
  wp X (tup_file_loop fs load_inc n vs) (fun p s' => Inv s' /\ Forall wfv p) Er s.
Proof.
  induction n as [|n IH]; intros vs s I Wvs Hf; [lia|]. cbn [tup_file_loop]. wp1.
  apply wp_fcI; auto; [|intros; cbn [negb]; wps; auto].
  intros s1 c r I1 L1 R1 _ _. cbn [negb]. wp1. apply wp_getpos. wp1.
  destruct (S_all_n n) as (Hv & _).
  eapply wp_mono; [apply Hv; auto; [apply wfps_nil|congruence|lia]| |auto].
  intros v s3 (I3 & L3 & W3). apply IH; auto.
  - apply Forall_app; auto.
  - lia.
Qed.

Lemma arr_stream_spec n s : Inv s -> (4 * len s + 3 <= n)%nat ->
  wp X (parse_arr_stream fs load_inc n) (fun a s' => Inv s' /\ wfv (VArr a)) Er s.
Proof.
  intros I Hn. unfold parse_arr_stream. wp1.
  eapply wp_mono; [apply arr_file_spec; auto; apply least_spec_all_nil| |auto].
  intros [vs t] s1 (I1 & W1 & L1). apply wp_new_arr; auto.
Qed.
Lemma tup_stream_spec n s : Inv s -> (4 * len s + 3 <= n)%nat ->
  wp X (parse_tup_stream fs load_inc n) (fun a s' => Inv s' /\ wfv (VTup a)) Er s.
Proof.
  intros I Hn. unfold parse_tup_stream. wp1.
  eapply wp_mono; [apply tup_file_spec; auto| |auto].
  intros vs s1 (I1 & W1). apply wp_new_tup; auto.
Qed.
End Induct.
