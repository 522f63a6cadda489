(** * AgreeBase: the leaves of the agreement between parser and specification. *)
From Verif Require Export Syntax Induct ParserEq.
From Coq Require String.
Import String.StringSyntax.
Open Scope N_scope.

(** ** Names of the fields of all Objs inside a value do not look like numbers. *)
Definition fname (f : str) : Prop := exists c r, f = c :: r /\ is_digit c = false.
Definition okv (v : value) : Prop :=
  forall o, part (VObj o) v -> Forall fname (map fst (obj_pairs o)).
Definition okps (ps : list (str * value)) : Prop := Forall (fun p => okv (snd p)) ps.

Lemma part_trans u v w : part u v -> part v w -> part u w.
Proof. intros H1 H2. induction H2; eauto using part. Qed.
Lemma okv_leaf v : match v with VArr _ | VTup _ | VObj _ => False | _ => True end -> okv v.
Proof. intros H o P. destruct v; try contradiction; inversion P. Qed.
Lemma okv_arr i t vs : okv (VArr (MkArr i t vs)) <-> Forall okv vs.
Proof.
  split.
  - intros H. apply Forall_forall. intros v Hv o P. apply H. econstructor; eauto.
  - intros H o P. inversion P; subst. rewrite Forall_forall in H. eapply H; eauto.
Qed.
Lemma okv_tup i t vs : okv (VTup (MkTup i t vs)) <-> Forall okv vs.
Proof.
  split.
  - intros H. apply Forall_forall. intros v Hv o P. apply H. econstructor; eauto.
  - intros H o P. inversion P; subst. rewrite Forall_forall in H. eapply H; eauto.
Qed.
Lemma okv_obj i ps par : okv (VObj (MkObj i ps par)) <->
  Forall fname (map fst ps) /\ okps ps /\ (forall p, par = Some p -> okv (VObj p)).
Proof.
  split.
  - intros H. split; [exact (H _ (part_self _))|]. split.
    + apply Forall_forall. intros [f v] Hv o P. apply H. econstructor; eauto.
    + intros p -> o P. apply H. constructor; auto.
  - intros (H1 & H2 & H3) o P. inversion P; subst; auto.
    + unfold okps in H2. rewrite Forall_forall in H2. eapply (H2 (_, _)); eauto.
    + eapply H3; eauto.
Qed.
Lemma okps_assoc ps f v : okps ps -> assoc f ps = Some v -> okv v.
Proof.
  intros H E. apply assoc_some in E as (l & r & -> & _). apply Forall_app in H as [_ H].
  inversion H; auto.
Qed.

(** ** Agreement *)
Definition st (s : pstate) : est := (s_globals s, s_sh s).
(** the values of the files included so far *)
Definition wfvals `{U : Unicode} (sh : shared) : Prop :=
  Forall (fun p => wf_value good_names (snd p)) (sh_vals sh).
Definition okst `{U : Unicode} (s : pstate) : Prop := okps (s_globals s) /\ wfvals (s_sh s).

Lemma wf_part `{U : Unicode} v w : wf_value good_names w -> part v w -> wf_value good_names v.
Proof.
  intros W P. induction P; auto; apply IHP; inversion W; subst.
  - rewrite Forall_forall in H2. auto.
  - rewrite Forall_forall in H2. auto.
  - inversion H1; subst. rewrite Forall_forall in H5. apply H5. apply in_map_iff. exists (f, w). auto.
  - constructor. inversion H0; subst. auto.
Qed.
Lemma alpha_not_digit `{U : Unicode} c : ch_is_alphabetic c = true -> is_digit c = false.
Proof.
  unfold ch_is_alphabetic, is_digit. rewrite !orb_true_iff, !andb_true_iff, !N.leb_le, N.ltb_lt, andb_false_iff, !N.leb_gt. lia.
Qed.
Lemma wf_okv `{U : Unicode} v : wf_value good_names v -> okv v.
Proof.
  intros W o P. apply (wf_part _ _ W) in P. inversion P as [| | | | | | |o' Wo]; subst.
  inversion Wo as [i ps par [_ L] _ _]; subst. cbn [obj_pairs].
  eapply Forall_impl; [|exact L]. intros f (c & r & -> & Hc & _). exists c, r. split; auto.
  destruct Hc as [Hc|Hc]; [apply alpha_not_digit; auto|]. rewrite Hc. reflexivity.
Qed.

(** The parser [m] started in [s] agrees with the evaluation [ev]: if it succeeds, so does the
    evaluation, with the same result (through [pr]), the same effects, and [rest] is left; if it
    fails with an error that is not exceptional, the evaluation fails. *)
Class Exc := exc : perr -> Prop.
Section Agr.
Context `{U : Unicode} `{X : Exc}.
Definition agr {A B} (P : B -> Prop) (pr : A -> B) (m : M A) (ev : ES B) (rest : str) (s : pstate) : Prop :=
  match m s with
  | (Ok a, s') =>
      ev (st s) = Some (pr a, st s') /\ s_rest s' = rest /\ s_file s' = s_file s /\ okst s' /\ P (pr a)
  | (Err e, _) => exc e \/ ev (st s) = None
  | _ => True
  end.
Notation idp := (fun x => x).

Lemma agr_bind {A B C D} (P1 : B -> Prop) (pr1 : A -> B) (P2 : D -> Prop) (pr2 : C -> D)
  (m : M A) (ev : ES B) (f : A -> M C) (g : B -> ES D) r1 r2 s :
  agr P1 pr1 m ev r1 s ->
  (forall a s', s_rest s' = r1 -> s_file s' = s_file s -> okst s' -> P1 (pr1 a) ->
     agr P2 pr2 (f a) (g (pr1 a)) r2 s') ->
  agr P2 pr2 (bind m f) (ebind ev g) r2 s.
Proof.
  unfold agr, bind, ebind. intros H K. destruct (m s) as [[a|e| |] s']; auto.
  - destruct H as (-> & H2 & H3 & H4 & H5). specialize (K a s' H2 H3 H4 H5).
    destruct (f a s') as [[c|e| |] s'']; auto. rewrite <- H3. auto.
  - destruct H as [H|H]; auto. right. rewrite H. auto.
Qed.

(** a step of the parser that has no counterpart *)
Lemma agr_step {A C D} (P : D -> Prop) (pr : C -> D) (m : M A) (f : A -> M C) ev rest s a s1 :
  m s = (Ok a, s1) -> st s1 = st s -> s_file s1 = s_file s ->
  agr P pr (f a) ev rest s1 -> agr P pr (bind m f) ev rest s.
Proof.
  intros E E1 E2 H. unfold agr, bind in *. rewrite E. rewrite E1 in H. destruct (f a s1) as [[]]; auto; congruence.
Qed.
Lemma agr_step_err {A C D} (P : D -> Prop) (pr : C -> D) (m : M A) (f : A -> M C) (ev : ES D) rest s e s1 :
  m s = (Err e, s1) -> exc e \/ ev (st s) = None -> agr P pr (bind m f) ev rest s.
Proof. intros E H. unfold agr, bind. rewrite E. auto. Qed.
Lemma agr_ret {A B} (P : B -> Prop) (pr : A -> B) (a : A) ev rest s :
  ev (st s) = Some (pr a, st s) -> s_rest s = rest -> okst s -> P (pr a) -> agr P pr (ret a) ev rest s.
Proof. intros. unfold agr, ret. auto. Qed.
Lemma agr_fail {A B} (P : B -> Prop) (pr : A -> B) k (ev : ES B) rest s :
  ev (st s) = None -> agr P pr (fail k) ev rest s.
Proof. right. auto. Qed.
Lemma agr_raise {A B} (P : B -> Prop) (pr : A -> B) e (ev : ES B) rest s :
  ev (st s) = None -> agr P pr (raise e) ev rest s.
Proof. right. auto. Qed.
Lemma agr_panic {A B} (P : B -> Prop) (pr : A -> B) (ev : ES B) rest s : agr P pr panic ev rest s.
Proof. exact I. Qed.
Lemma agr_nofuel {A B} (P : B -> Prop) (pr : A -> B) (ev : ES B) rest s : agr P pr nofuel ev rest s.
Proof. exact I. Qed.
Lemma agr_ext {A B} (P : B -> Prop) (pr : A -> B) m (ev ev' : ES B) rest s :
  ev (st s) = ev' (st s) -> agr P pr m ev rest s -> agr P pr m ev' rest s.
Proof. unfold agr. intros E. destruct (m s) as [[]]; auto; rewrite E; auto. Qed.
Lemma agr_weak {A B} (P P' : B -> Prop) (pr : A -> B) m (ev : ES B) rest s :
  (forall b, P b -> P' b) -> agr P pr m ev rest s -> agr P' pr m ev rest s.
Proof. unfold agr. intros E. destruct (m s) as [[]]; auto. intuition. Qed.

(** the monad laws of [ES], pointwise *)
Lemma ebind_assoc {A B C} (m : ES A) (f : A -> ES B) (g : B -> ES C) x :
  ebind (ebind m f) g x = ebind m (fun a => ebind (f a) g) x.
Proof. unfold ebind. destruct (m x) as [[a x']|]; auto. Qed.
End Agr.
Notation idp := (fun x => x).

(** ** White space *)
Section Ws.
Context `{U : Unicode}.

Lemma find_ws w : ws w -> forall l k rest, exists l' k',
  find_char_l (w ++ rest) l k false = find_char_l rest l' k' false.
Proof.
  induction 1 as [|c t Hc Ht IH|body t Hb Ht IH]; intros l k rest.
  - exists l, k. reflexivity.
  - cbn. destruct (adv c l k) as [l' k']. rewrite Hc.
    destruct (N.eqb_spec c 35) as [->|_]; [discriminate|]. apply IH.
  - cbn [app find_char_l]. rewrite (N.eqb_refl 35). destruct (adv 35 l k) as [l1 k1].
    rewrite <- app_assoc.
    assert (G : forall l k, exists l' k', find_char_l (body ++ (10 :: t) ++ rest) l k true =
      find_char_l (t ++ rest) l' k' false).
    { clear IH. induction Hb as [|c body Hc Hb IHb]; intros l2 k2.
      - cbn. eauto.
      - cbn [app find_char_l]. destruct (adv c l2 k2) as [l3 k3].
        replace (c =? 10) with false by (symmetry; apply N.eqb_neq; auto). apply IHb. }
    destruct (G l1 k1) as (l2 & k2 & ->). apply IH.
Qed.

Lemma find_char_found w c r s : ws w -> s_rest s = w ++ c :: r -> is_whitespace c = false ->
  exists l k, find_char s = (Ok true, set_stream s (c :: r) l k).
Proof.
  intros W R Hc. unfold find_char. rewrite R.
  destruct (find_ws w W (s_line s) (s_col s) (c :: r)) as (l & k & ->).
  unfold is_whitespace in Hc. apply orb_false_iff in Hc as [H1 H2].
  cbn [find_char_l]. destruct (adv c l k) as [l' k']. rewrite H1, H2. eauto.
Qed.
Lemma find_char_end w c s : ws w -> last_comment c -> s_rest s = w ++ c ->
  exists l k, find_char s = (Ok false, set_stream s [] l k).
Proof.
  intros W L R. unfold find_char. rewrite R.
  destruct (find_ws w W (s_line s) (s_col s) c) as (l & k & ->).
  destruct L as [->|(body & -> & Hb)]; [cbn; eauto|].
  cbn [find_char_l]. rewrite (N.eqb_refl 35). destruct (adv 35 l k) as [l1 k1]. clear - Hb.
  revert l1 k1. induction Hb as [|c body Hc Hb IHb]; intros l1 k1; [cbn; eauto|].
  cbn [find_char_l]. destruct (adv c l1 k1) as [l3 k3].
  replace (c =? 10) with false by (symmetry; apply N.eqb_neq; auto). apply IHb.
Qed.
End Ws.

(** ** Character classes *)
Section Chars.
Context `{U : Unicode}.
Lemma lod_field c : letter_or_digit c -> is_valid_field_char c false = true.
Proof.
  unfold is_valid_field_char. intros [[H| ->]|H].
  - rewrite H. auto.
  - destruct (ch_is_alphabetic 95); auto.
  - destruct (ch_is_alphabetic c); auto. rewrite H. auto.
Qed.
Lemma field_lod c : is_valid_field_char c false = true -> letter_or_digit c.
Proof.
  intros H. apply valid_field_cases in H as [H|[[H _]|[->|[_ H]]]].
  - left; left; auto.
  - right; auto.
  - left; right; auto.
  - discriminate.
Qed.
Lemma letter_field c : letter c -> is_valid_field_char c true = true.
Proof.
  unfold is_valid_field_char. intros [H| ->]; [rewrite H; auto|]. destruct (ch_is_alphabetic 95); auto.
Qed.
Lemma alpha_range c : ch_is_alphabetic c = true -> 65 <= c <= 90 \/ 97 <= c <= 122 \/ 127 < c.
Proof.
  unfold ch_is_alphabetic. rewrite !orb_true_iff, !andb_true_iff, !N.leb_le, N.ltb_lt. lia.
Qed.
Lemma lod_range c : letter_or_digit c -> 48 <= c <= 57 \/ 65 <= c <= 90 \/ c = 95 \/ 97 <= c <= 122 \/ 127 < c.
Proof.
  intros [[H| ->]|H]; [apply alpha_range in H; lia|lia|apply digit_range in H; lia].
Qed.
Lemma lod_not_end c : letter_or_digit c -> is_value_end_char c = false.
Proof. intros H. eapply field_not_end, lod_field; auto. Qed.
Lemma letter_not_digit c : letter c -> is_digit c = false.
Proof.
  intros H. destruct (is_digit c) eqn:D; auto. apply digit_range in D.
  destruct H as [H| ->]; [apply alpha_range in H|]; lia.
Qed.
Lemma letter_lod c : letter c -> letter_or_digit c.
Proof. left; auto. Qed.

(** What may follow an atom, and a whole expression inside [brace]. *)
Definition fol (rest : str) : Prop := rest = [] \/ exists c r, rest = c :: r /\ is_value_end_char c = true.
Definition folb (brace : option char) (rest : str) : Prop :=
  rest = [] \/ exists c r, rest = c :: r /\
    (is_whitespace c = true \/ (is_end_delimiter c = true /\ brace = Some c)).
Lemma folb_fol b r : folb b r -> fol r.
Proof.
  intros [H|(c & r' & E & H)]; [left; auto|right]. exists c, r'. split; auto.
  unfold is_value_end_char. destruct H as [->|[-> _]]; auto. rewrite orb_true_r. auto.
Qed.

(** ** Scanners *)
Lemma scan_var_end n rest : Forall letter_or_digit n -> fol rest -> forall l k v, exists l' k',
  scan_var (n ++ rest) l k v = (VS_end (v ++ n), (rest, l', k')).
Proof.
  intros Hn F. induction Hn as [|c n Hc Hn IH]; intros l k v.
  - rewrite app_nil_r. cbn [app]. destruct F as [->|(c & r & -> & V)]; [cbn; eauto|].
    cbn [scan_var]. destruct (adv c l k). rewrite V. destruct (N.eqb_spec c 46); [subst; discriminate|]. eauto.
  - cbn [app scan_var]. destruct (adv c l k) as [l' k'].
    pose proof (lod_range _ Hc) as R. destruct (N.eqb_spec c 46); [lia|].
    rewrite (lod_not_end _ Hc), (lod_field _ Hc). destruct (IH l' k' (v ++ [c])) as (l2 & k2 & E).
    exists l2, k2. rewrite <- app_assoc in E. exact E.
Qed.
Lemma scan_var_dot n rest : Forall letter_or_digit n -> forall l k v, exists l' k',
  scan_var (n ++ 46 :: rest) l k v = (VS_dot (v ++ n), (rest, l', k')).
Proof.
  intros Hn. induction Hn as [|c n Hc Hn IH]; intros l k v.
  - rewrite app_nil_r. cbn. eauto.
  - cbn [app scan_var]. destruct (adv c l k) as [l' k'].
    pose proof (lod_range _ Hc) as R. destruct (N.eqb_spec c 46); [lia|].
    rewrite (lod_not_end _ Hc), (lod_field _ Hc). destruct (IH l' k' (v ++ [c])) as (l2 & k2 & E).
    exists l2, k2. rewrite <- app_assoc in E. exact E.
Qed.
Lemma scan_field_rest r rest : Forall letter_or_digit r -> forall l k v, exists l' k',
  scan_field (r ++ 58 :: rest) l k v false = (FS_ok (v ++ r), (rest, l', k')).
Proof.
  intros Hn. induction Hn as [|c n Hc Hn IH]; intros l k v.
  - rewrite app_nil_r. cbn. eauto.
  - cbn [app scan_field]. destruct (adv c l k) as [l' k'].
    pose proof (lod_range _ Hc) as R. destruct (N.eqb_spec c 58); [lia|]. cbn [andb].
    rewrite (lod_field _ Hc). destruct (IH l' k' (v ++ [c])) as (l2 & k2 & E).
    exists l2, k2. rewrite <- app_assoc in E. exact E.
Qed.
Lemma scan_field_all c r rest l k v : letter c \/ c = 94 -> Forall letter_or_digit r -> exists l' k',
  scan_field (c :: r ++ 58 :: rest) l k v true = (FS_ok (v ++ c :: r), (rest, l', k')).
Proof.
  intros Hc Hr. cbn [scan_field]. destruct (adv c l k) as [l' k'].
  rewrite andb_false_r.
  assert (V : is_valid_field_char c true = true).
  { destruct Hc as [Hc| ->]; [apply letter_field; auto|].
    unfold is_valid_field_char. destruct (ch_is_alphabetic 94); auto. }
  rewrite V. destruct (scan_field_rest r rest Hr l' k' (v ++ [c])) as (l2 & k2 & E).
  exists l2, k2. rewrite <- app_assoc in E. exact E.
Qed.

Lemma escape_value c : get_escape_char c = schar_value (SEsc c).
Proof.
  unfold get_escape_char, schar_value, escapes. cbn [find fst].
  rewrite !(N.eqb_sym _ c).
  repeat match goal with |- context [c =? ?k] => destruct (c =? k); [reflexivity|] end. reflexivity.
Qed.

Lemma scan_str_all cs rest : Forall schar_ok cs -> forall l k acc,
  match str_value cs with
  | Some v => exists l' k', scan_str (flat_map schar_text cs ++ 34 :: rest) l k acc false =
      (SS_ok (acc ++ v), (rest, l', k'))
  | None => exists c q, scan_str (flat_map schar_text cs ++ 34 :: rest) l k acc false =
      (SS_bad_escape c, q)
  end.
Proof.
  intros H. induction H as [|x cs Hx Hcs IH]; intros l k acc.
  - cbn. rewrite app_nil_r. eauto.
  - unfold str_value in *. cbn [map all_some flat_map]. rewrite <- app_assoc. destruct x as [c|c].
    + destruct Hx as [H1 H2]. cbn [schar_value schar_text app scan_str]. destruct (adv c l k) as [l' k'].
      apply N.eqb_neq in H1, H2. rewrite H1, H2. specialize (IH l' k' (acc ++ [c])).
      destruct (all_some (map schar_value cs)) as [v|]; [|exact IH].
      destruct IH as (l2 & k2 & E). exists l2, k2. rewrite <- app_assoc in E. exact E.
    + cbn [schar_text app scan_str]. destruct (adv 92 l k) as [l1 k1].
      change (92 =? 34) with false. change (92 =? 92) with true. cbv iota.
      destruct (adv c l1 k1) as [l' k']. rewrite escape_value.
      destruct (schar_value (SEsc c)) as [e|]; [|eauto]. specialize (IH l' k' (acc ++ [e])).
      destruct (all_some (map schar_value cs)) as [v|]; [|exact IH].
      destruct IH as (l2 & k2 & E). exists l2, k2. rewrite <- app_assoc in E. exact E.
Qed.

Lemma parse_str_agr `{Exc} s cs rest : Forall schar_ok cs ->
  s_rest s = 34 :: flat_map schar_text cs ++ 34 :: rest -> okst s ->
  agr okv idp parse_str (elift (option_map VStr (str_value cs))) rest s.
Proof.
  intros Hs R K. unfold agr, parse_str, next_unwrap, bind, next. rewrite R.
  destruct (adv 34 (s_line s) (s_col s)) as [l k]. cbn [unwrap ret].
  unfold assert_, ret. change (34 =? 34) with true. cbv iota. cbn [s_rest s_line s_col set_stream].
  pose proof (scan_str_all cs rest Hs l k []) as Sc.
  destruct (str_value cs) as [v|].
  - destruct Sc as (l' & k' & ->). cbn. repeat split; try apply K. apply okv_leaf. exact I.
  - destruct Sc as (c & [[r' l'] k'] & ->). unfold getline, col_minus_1, fail. cbn.
    destruct (k' =? 0); cbn; auto.
Qed.

End Chars.
