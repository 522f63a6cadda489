(** * Scan: what the scanning loops consume, and positions. *)
From Verif Require Export Wp PosSpec.
Open Scope N_scope.

(** ** Positions *)
Definition advs (con : str) (p : N * N) : N * N :=
  fold_left (fun p c => adv c (fst p) (snd p)) con p.

Lemma advs_app a b p : advs (a ++ b) p = advs b (advs a p).
Proof. apply fold_left_app. Qed.
Lemma advs_cons c a p : advs (c :: a) p = advs a (adv c (fst p) (snd p)).
Proof. reflexivity. Qed.

Lemma pos_at_nil : pos_at [] 1 1.
Proof.
  split; [reflexivity|]. exists [], []. repeat split; auto. constructor.
Qed.

Lemma pos_at_snoc pre l c x :
  pos_at pre l c -> pos_at (pre ++ [x]) (fst (adv x l c)) (snd (adv x l c)).
Proof.
  intros (Hl & lines & last & -> & Hn & Hs & Hc). unfold adv.
  destruct (N.eqb_spec x 10); cbn [fst snd].
  - subst x. split.
    + rewrite count_occ_app, count_occ_cons_eq by auto. change (count_occ N.eq_dec [] 10) with 0%nat. lia.
    + exists ((lines ++ last) ++ [10]), []. repeat split; auto.
      * rewrite app_nil_r; auto.
      * constructor.
      * right. eauto.
  - split.
    + rewrite count_occ_app, count_occ_cons_neq by auto. change (count_occ N.eq_dec [] 10) with 0%nat. lia.
    + exists lines, (last ++ [x]). repeat split; auto.
      * rewrite app_assoc; auto.
      * apply Forall_app; split; auto.
      * rewrite app_length. change (length [x]) with 1%nat. lia.
Qed.

Lemma pos_at_advs con : forall pre l c,
  pos_at pre l c -> pos_at (pre ++ con) (fst (advs con (l, c))) (snd (advs con (l, c))).
Proof.
  induction con as [|x con IH]; intros pre l c H.
  - rewrite app_nil_r. auto.
  - rewrite advs_cons. cbn [fst snd].
    replace (pre ++ x :: con) with ((pre ++ [x]) ++ con) by (rewrite <- app_assoc; auto).
    rewrite (surjective_pairing (adv x l c)). apply IH. apply pos_at_snoc; auto.
Qed.

Lemma pos_at_col pre l c : pos_at pre l c -> 1 <= c.
Proof. intros (_ & ? & ? & _ & _ & _ & ->). lia. Qed.

Lemma pos_at_fun pre l c l' c' : pos_at pre l c -> pos_at pre l' c' -> l = l' /\ c = c'.
Proof.
  intros (Hl & a & b & E & Hn & Hs & Hc) (Hl' & a' & b' & E' & Hn' & Hs' & Hc'). split; [congruence|].
  assert (b = b'); [|congruence].
  assert (W : forall a b a' b', a ++ b = a' ++ b' -> no_nl b' ->
    (a = [] \/ exists x, a = x ++ [10]) -> exists y, a' = y ++ [] /\ (length a <= length a')%nat).
  { clear. intros a b a' b' E Hn' Hs. exists a'. split; [rewrite app_nil_r; auto|].
    destruct (Nat.le_gt_cases (length a) (length a')) as [|G]; auto. exfalso.
    destruct Hs as [->|[x ->]]; [cbn in G; lia|].
    assert (In 10 b'); [|unfold no_nl in Hn'; rewrite Forall_forall in Hn'; eapply Hn'; eauto].
    rewrite app_length in G. cbn in G.
    assert (E2 : skipn (length a') ((x ++ [10]) ++ b) = b').
    { rewrite E. rewrite skipn_app, skipn_all, Nat.sub_diag. auto. }
    rewrite <- E2, <- app_assoc, skipn_app.
    replace (length a' - length x)%nat with 0%nat by lia. cbn. apply in_app_iff; cbn; auto. }
  subst pre. destruct (W a b a' b' E' Hn' Hs) as (_ & _ & L1).
  destruct (W a' b' a b (eq_sym E') Hn Hs') as (_ & _ & L2).
  assert (L : length a = length a') by lia.
  clear - E' L. revert a' E' L. induction a; intros [|? a'] E L; cbn in *; try discriminate; auto.
  inversion E. eauto.
Qed.

Definition in_text (T : str) (s : pstate) : Prop :=
  exists pre, T = pre ++ s_rest s /\ pos_at pre (s_line s) (s_col s).

(** [s'] is [s] with [con] consumed from the stream. *)
Definition moved_by (con : str) (s s' : pstate) : Prop :=
  s_rest s = con ++ s_rest s' /\ (s_line s', s_col s') = advs con (s_line s, s_col s) /\
  s_file s' = s_file s /\ s_globals s' = s_globals s /\ s_sh s' = s_sh s.
Definition moved (s s' : pstate) : Prop := exists con, moved_by con s s'.

Lemma in_text_moved_by T con s s' : in_text T s -> moved_by con s s' -> in_text T s'.
Proof.
  intros (pre & -> & P) (E & Ea & _). exists (pre ++ con). split.
  - rewrite <- app_assoc, E. auto.
  - apply (pos_at_advs con) in P. rewrite <- Ea in P. auto.
Qed.

Lemma moved_by_adv1 s c r : s_rest s = c :: r -> moved_by [c] s (adv1 s c r).
Proof.
  intros E. unfold moved_by, adv1. cbn. rewrite E. repeat split; auto.
  unfold advs; cbn. symmetry. apply surjective_pairing.
Qed.

Lemma moved_by_trans a b s s' s'' :
  moved_by a s s' -> moved_by b s' s'' -> moved_by (a ++ b) s s''.
Proof.
  intros (A1 & A2 & A3 & A4 & A5) (B1 & B2 & B3 & B4 & B5). unfold moved_by.
  rewrite advs_app, <- A2, <- B2, A1, B1, app_assoc. repeat split; congruence.
Qed.

Lemma moved_by_nil s : moved_by [] s s.
Proof. repeat split. Qed.
Lemma moved_refl s : moved s s.
Proof. exists []. apply moved_by_nil. Qed.
Lemma moved_adv1 s c r : s_rest s = c :: r -> moved s (adv1 s c r).
Proof. exists [c]. apply moved_by_adv1; auto. Qed.
Lemma moved_trans s s' s'' : moved s s' -> moved s' s'' -> moved s s''.
Proof. intros [a A] [b B]. exists (a ++ b). eapply moved_by_trans; eauto. Qed.

Lemma in_text_pos T s : in_text T s -> at_pos T (s_line s) (s_col s).
Proof. intros (pre & E & P). exists pre, (s_rest s). auto. Qed.
Lemma in_text_char T s c r : in_text T s -> s_rest s = c :: r -> char_at T c (s_line s) (s_col s).
Proof. intros (pre & E & P) R. exists pre, r. rewrite R in E. auto. Qed.
Lemma in_text_text T s w r : in_text T s -> s_rest s = w ++ r -> text_at T w (s_line s) (s_col s).
Proof. intros (pre & E & P) R. exists pre, r. rewrite R in E. auto. Qed.
Lemma in_text_end T s : in_text T s -> s_rest s = [] -> last_line T (s_line s).
Proof. intros (pre & E & P) R. rewrite R, app_nil_r in E. subst. exists (s_col s). auto. Qed.

(** ** The loops *)

(** A result [(x, (r', l', k'))] of a loop started at [(r, l, k)]. *)
Definition scanned (r : str) (l k : N) (con : str) (q : str * N * N) : Prop :=
  r = con ++ fst (fst q) /\ (snd (fst q), snd q) = advs con (l, k).

Lemma scanned_nil r l k : scanned r l k [] (r, l, k).
Proof. split; reflexivity. Qed.
Lemma scanned_cons c r l k l' k' con q :
  adv c l k = (l', k') -> scanned r l' k' con q -> scanned (c :: r) l k (c :: con) q.
Proof.
  intros A [E1 E2]. split; [rewrite E1; reflexivity|]. rewrite advs_cons, E2. cbn [fst snd]. rewrite A. auto.
Qed.
Lemma scanned_moved s con r l k :
  scanned (s_rest s) (s_line s) (s_col s) con (r, l, k) -> moved_by con s (set_stream s r l k).
Proof. intros [E1 E2]. repeat split; auto. Qed.

Lemma find_char_l_spec : forall r l k cm b q,
  find_char_l r l k cm = (b, q) ->
  exists con, scanned r l k con q /\
    (b = true -> exists c r', fst (fst q) = c :: r' /\ ch_is_whitespace c = false /\ c <> c_hash) /\
    (b = false -> fst (fst q) = []).
Proof.
  induction r as [|c r IH]; intros l k cm b q E; cbn in E.
  - inversion E; subst. exists []. repeat split; auto; discriminate.
  - destruct (adv c l k) as [l' k'] eqn:A.
    assert (G : forall cm', find_char_l r l' k' cm' = (b, q) -> exists con, scanned (c :: r) l k con q /\
      (b = true -> exists c r', fst (fst q) = c :: r' /\ ch_is_whitespace c = false /\ c <> c_hash) /\
      (b = false -> fst (fst q) = [])).
    { intros cm' E'. apply IH in E' as (con & S & H1 & H2). exists (c :: con).
      split; [eapply scanned_cons; eauto|auto]. }
    destruct cm; [eauto|]. destruct (N.eqb_spec c 35); [eauto|].
    destruct (ch_is_whitespace c) eqn:W; [eauto|].
    inversion E; subst. exists []. split; [apply scanned_nil|]. cbn. split; [eauto|discriminate].
Qed.

Lemma wp_find_char X (Q : bool -> pstate -> Prop) E s :
  (forall b s', moved s s' ->
     (b = true -> exists c r, s_rest s' = c :: r /\ ch_is_whitespace c = false /\ c <> c_hash) ->
     (b = false -> s_rest s' = []) -> Q b s') ->
  wp X find_char Q E s.
Proof.
  intros H. unfold wp, find_char.
  destruct (find_char_l (s_rest s) (s_line s) (s_col s) false) as [b [[r l] k]] eqn:F.
  apply find_char_l_spec in F as (con & S & H1 & H2). apply H; auto.
  exists con. apply scanned_moved; auto.
Qed.

Lemma scan_str_spec : forall r l k acc esc x q,
  scan_str r l k acc esc = (x, q) ->
  exists con, scanned r l k con q /\
    match x with
    | SS_ok _ => con <> []
    | SS_bad_escape c => exists con', con = con' ++ [c]
    | SS_end => fst (fst q) = []
    end.
Proof.
  induction r as [|c r IH]; intros l k acc esc x q E; cbn in E.
  - inversion E; subst. exists []. split; [apply scanned_nil|]. reflexivity.
  - destruct (adv c l k) as [l' k'] eqn:A.
    assert (G : forall acc' esc', scan_str r l' k' acc' esc' = (x, q) ->
      exists con, scanned (c :: r) l k con q /\
        match x with
        | SS_ok _ => con <> []
        | SS_bad_escape c => exists con', con = con' ++ [c]
        | SS_end => fst (fst q) = []
        end).
    { intros acc' esc' E'. apply IH in E' as (con & S & H). exists (c :: con).
      split; [eapply scanned_cons; eauto|]. destruct x; auto; [discriminate|].
      destruct H as [con' ->]. exists (c :: con'). auto. }
    destruct esc.
    + destruct (get_escape_char c); [eauto|]. inversion E; subst. exists [c].
      split; [eapply scanned_cons; eauto; apply scanned_nil|]. exists []; auto.
    + destruct (c =? 34).
      * inversion E; subst. exists [c].
        split; [eapply scanned_cons; eauto; apply scanned_nil|]. discriminate.
      * destruct (c =? 92); eauto.
Qed.

Lemma scan_numeric_spec : forall r l k s1 s2 dec under x q,
  forallb is_digit s1 = true -> forallb is_digit s2 = true ->
  scan_numeric r l k s1 s2 dec under = (x, q) ->
  exists con, scanned r l k con q /\
    match x with
    | NS_ok s1 s2 _ => forallb is_digit s1 = true /\ forallb is_digit s2 = true /\
        (con = [] -> r = [] \/ exists c r', r = c :: r' /\ is_value_end_char c = true)
    | NS_bad c => exists r', fst (fst q) = c :: r'
    end.
Proof.
  induction r as [|c r IH]; intros l k s1 s2 dec under x q H1 H2 E; cbn in E.
  - inversion E; subst. exists []. split; [apply scanned_nil|]. auto.
  - destruct (adv c l k) as [l' k'] eqn:A.
    assert (G : forall t1 t2 d u, forallb is_digit t1 = true -> forallb is_digit t2 = true ->
      scan_numeric r l' k' t1 t2 d u = (x, q) ->
      exists con, scanned (c :: r) l k con q /\
        match x with
        | NS_ok s1 s2 _ => forallb is_digit s1 = true /\ forallb is_digit s2 = true /\
            (con = [] -> c :: r = [] \/ exists c' r', c :: r = c' :: r' /\ is_value_end_char c' = true)
        | NS_bad c => exists r', fst (fst q) = c :: r'
        end).
    { intros t1 t2 d u G1 G2 E'. apply IH in E' as (con & S & H); auto. exists (c :: con).
      split; [eapply scanned_cons; eauto|]. destruct x; auto.
      destruct H as (? & ? & _). repeat split; auto. discriminate. }
    destruct (is_value_end_char c) eqn:V.
    { inversion E; subst. exists []. split; [apply scanned_nil|]. repeat split; auto. intros _. right. exists c, r. auto. }
    destruct (is_digit c) eqn:D.
    { assert (forallb is_digit (s1 ++ [c]) = true) by (rewrite forallb_app, H1; cbn; rewrite D; auto).
      assert (forallb is_digit (s2 ++ [c]) = true) by (rewrite forallb_app, H2; cbn; rewrite D; auto).
      destruct (negb dec); eapply G; try exact E; auto. }
    assert (B : (NS_bad c, (c :: r, l, k)) = (x, q) ->
      exists con, scanned (c :: r) l k con q /\
        match x with
        | NS_ok s1 s2 _ => forallb is_digit s1 = true /\ forallb is_digit s2 = true /\
            (con = [] -> c :: r = [] \/ exists c' r', c :: r = c' :: r' /\ is_value_end_char c' = true)
        | NS_bad c => exists r', fst (fst q) = c :: r'
        end).
    { intros E'. inversion E'; subst. exists []. split; [apply scanned_nil|]. cbn. eauto. }
    destruct ((c =? 46) || (c =? 44)); [destruct (negb dec); eauto|].
    destruct (c =? 95); [destruct (negb under); eauto|]. eauto.
Qed.

Section Unicode.
Context `{U : Unicode}.

Lemma scan_field_spec : forall r l k f first x q,
  scan_field r l k f first = (x, q) ->
  exists con, scanned r l k con q /\
    match x with
    | FS_ok g => exists w, g = f ++ w /\ (con = w ++ [c_colon] \/ (con = w /\ fst (fst q) = [])) /\
        is_valid_field_from first w = true /\
        (r <> [] -> con <> []) /\ (first = true -> con = w ++ [c_colon] -> w <> [])
    | FS_bad c => exists con', con = con' ++ [c]
    end.
Proof.
  induction r as [|c r IH]; intros l k f first x q E; cbn in E.
  - inversion E; subst. exists []. split; [apply scanned_nil|].
    exists []. rewrite app_nil_r. repeat split; auto. intros _ ?. discriminate.
  - destruct (adv c l k) as [l' k'] eqn:A.
    destruct ((c =? 58) && negb first) eqn:C.
    + apply andb_true_iff in C as [C1 C2]. apply N.eqb_eq in C1. subst c.
      inversion E; subst. exists [58].
      split; [eapply scanned_cons; eauto; apply scanned_nil|].
      exists []. rewrite app_nil_r. repeat split; auto; try discriminate.
      intros ->. discriminate.
    + destruct (is_valid_field_char c first) eqn:V.
      * apply IH in E as (con & S & H). exists (c :: con).
        split; [eapply scanned_cons; eauto|]. destruct x as [g|].
        -- destruct H as (w & -> & H1 & H2 & H3 & H4). exists (c :: w). rewrite <- app_assoc.
           cbn [is_valid_field_from]. rewrite V, H2. repeat split; auto; try discriminate.
           destruct H1 as [->|[-> ?]]; [left|right]; auto.
        -- destruct H as [con' ->]. exists (c :: con'). auto.
      * inversion E; subst. exists [c].
        split; [eapply scanned_cons; eauto; apply scanned_nil|]. exists []; auto.
Qed.

Lemma scan_var_spec : forall r l k v x q,
  scan_var r l k v = (x, q) ->
  exists con, scanned r l k con q /\
    match x with
    | VS_end w => w = v ++ con /\ (con = [] -> r = [] \/ exists c r', r = c :: r' /\ is_value_end_char c = true)
    | VS_dot w => exists u, w = v ++ u /\ con = u ++ [c_dot]
    | VS_bad c => exists r', fst (fst q) = c :: r'
    end.
Proof.
  induction r as [|c r IH]; intros l k v x q E; cbn in E.
  - inversion E; subst. exists []. split; [apply scanned_nil|]. rewrite app_nil_r. auto.
  - destruct (adv c l k) as [l' k'] eqn:A.
    destruct (N.eqb_spec c 46).
    { subst c. inversion E; subst. exists [46].
      split; [eapply scanned_cons; eauto; apply scanned_nil|]. exists []. rewrite app_nil_r. auto. }
    destruct (is_value_end_char c) eqn:V.
    { inversion E; subst. exists []. split; [apply scanned_nil|]. rewrite app_nil_r. split; auto. intros _. right. exists c, r. auto. }
    destruct (is_valid_field_char c false).
    + apply IH in E as (con & S & H). exists (c :: con).
      split; [eapply scanned_cons; eauto|]. destruct x.
      * destruct H as [-> H]. rewrite <- app_assoc. split; auto. discriminate.
      * destruct H as (u & -> & ->). exists (c :: u). rewrite <- app_assoc. auto.
      * auto.
    + inversion E; subst. exists []. split; [apply scanned_nil|]. cbn. eauto.
Qed.
End Unicode.
