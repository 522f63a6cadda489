(** * PropLit: literals, C18 and C19. *)
From Verif Require Import LangSpec PropLoad Format.
From Coq Require String.
Import String.StringSyntax.
Open Scope N_scope.

(** ** Specification *)

(** The number a string of digits spells. *)
Fixpoint decimal_from (a : Z) (ds : str) : Z :=
  match ds with [] => a | d :: ds' => decimal_from (10 * a + (Z.of_N d - 48)) ds' end.
Definition decimal (ds : str) : Z := decimal_from 0 ds.

Definition has_digit (w : str) : Prop := exists c, In c w /\ is_digit c = true.
Definition has_point (w : str) : Prop := exists c, In c w /\ (c = c_dot \/ c = c_comma).
Definition has_double (w : str) : Prop := exists u v, w = u ++ c_under :: c_under :: v.
Definition two_points (w : str) : Prop :=
  exists u p v, w = u ++ p :: v /\ (p = c_dot \/ p = c_comma) /\ has_point v.

(** What a numeric literal denotes. *)
Inductive num_denotes : str -> value -> Prop :=
| nd_int w : ~ has_point w -> has_digit w -> ~ has_double w ->
    num_denotes w (VInt (decimal (filter is_digit w)))
| nd_frac a p b q : ~ has_point a -> p = c_dot \/ p = c_comma -> ~ has_point b ->
    has_digit (a ++ b) -> ~ has_double (a ++ p :: b) -> lowest q ->
    q * inject_Z (10 ^ Z.of_nat (length (filter is_digit b))) == inject_Z (decimal (filter is_digit (a ++ b))) ->
    num_denotes (a ++ p :: b) (VFrac q).

(** The seven escapes. *)
Inductive escape : char -> char -> Prop :=
| es_bs : escape c_bslash c_bslash
| es_dq : escape c_quote c_quote
| es_sq : escape c_apos c_apos
| es_dollar : escape c_dollar c_dollar
| es_n : escape c_n c_nl
| es_r : escape c_r c_cr
| es_t : escape c_t c_tab.
(** What the text between the quotes of a string literal denotes. *)
Inductive str_denotes : str -> str -> Prop :=
| sd_nil : str_denotes [] []
| sd_plain c t s : c <> c_quote -> c <> c_bslash -> str_denotes t s -> str_denotes (c :: t) (c :: s)
| sd_esc c d t s : escape c d -> str_denotes t s -> str_denotes (c_bslash :: c :: t) (d :: s).

(** ** Numbers *)
Lemma decimal_dec ds : Forall (fun c => is_digit c = true) ds -> Z.of_N (dec_val ds) = decimal ds.
Proof.
  unfold dec_val, decimal. change 0%Z with (Z.of_N 0). generalize 0. 
  induction ds as [|d ds IH]; intros a F; [reflexivity|]. inversion F; subst. cbn [fold_left decimal_from].
  rewrite IH by auto. f_equal. unfold is_digit in H1. apply andb_true_iff in H1 as [L1 L2].
  apply N.leb_le in L1, L2. lia.
Qed.
Lemma digits_all w : Forall (fun c => is_digit c = true) (filter is_digit w).
Proof. apply Forall_forall. intros c H. apply filter_In in H. tauto. Qed.
Lemma digits_nil w : filter is_digit w = [] <-> ~ has_digit w.
Proof.
  split.
  - intros E (c & I & D). assert (In c (filter is_digit w)) by (apply filter_In; auto). rewrite E in H. destruct H.
  - intros N. destruct (filter is_digit w) as [|c l] eqn:E; auto. exfalso. apply N. exists c.
    apply filter_In. rewrite E. left; auto.
Qed.
Lemma point_iff c : is_point c = true <-> c = c_dot \/ c = c_comma.
Proof. unfold is_point. rewrite orb_true_iff, !N.eqb_eq. tauto. Qed.
Lemma point_ex w : existsb is_point w = true <-> has_point w.
Proof.
  rewrite existsb_exists. unfold has_point. split; intros (c & I & P); exists c; split; auto; apply point_iff; auto.
Qed.
Lemma point_no w : existsb is_point w = false <-> ~ has_point w.
Proof. rewrite <- point_ex. destruct (existsb is_point w); split; congruence. Qed.
Lemma double_iff w : double_under w = true <-> has_double w.
Proof.
  induction w as [|c w IH]; [split; [discriminate|intros (u & v & E); destruct u; discriminate]|].
  split.
  - cbn [double_under]. destruct w as [|d w]; [discriminate|]. intros H. apply orb_true_iff in H as [H|H].
    + apply andb_true_iff in H as [H1 H2]. apply N.eqb_eq in H1, H2. subst. exists [], w. reflexivity.
    + apply IH in H as (u & v & E). exists (c :: u), v. rewrite E. reflexivity.
  - intros (u & v & E). destruct u as [|a u].
    + injection E as -> ->. reflexivity.
    + injection E as -> E. cbn [double_under]. destruct w as [|d w]; [destruct u; discriminate|].
      apply orb_true_iff. right. apply IH. exists u, v. exact E.
Qed.
Lemma double_no w : double_under w = false <-> ~ has_double w.
Proof. rewrite <- double_iff. destruct (double_under w); split; congruence. Qed.
Lemma split_spec w : match split_point w with
  | (a, None) => a = w /\ ~ has_point w
  | (a, Some b) => exists p, w = a ++ p :: b /\ is_point p = true /\ ~ has_point a
  end.
Proof.
  induction w as [|c w IH]; cbn [split_point].
  - split; auto. intros (c & [] & _).
  - destruct (is_point c) eqn:P.
    + exists c. split; auto. split; auto. intros (d & [] & _).
    + destruct (split_point w) as [a [b|]].
      * destruct IH as (p & -> & Pp & Na). exists p. split; auto. split; auto.
        rewrite <- point_no in *. cbn. rewrite P. exact Na.
      * destruct IH as [-> Nw]. split; auto. rewrite <- point_no in *. cbn. rewrite P. exact Nw.
Qed.
Lemma split_at a p b : ~ has_point a -> is_point p = true -> split_point (a ++ p :: b) = (a, Some b).
Proof.
  intros Na P. rewrite <- point_no in Na. induction a as [|c a IH]; cbn [split_point app].
  - rewrite P. reflexivity.
  - cbn in Na. apply orb_false_iff in Na as [N1 N2]. rewrite N1, IH by auto. reflexivity.
Qed.

Lemma frac_iff n k q : lowest q ->
  (q * inject_Z (10 ^ Z.of_nat k) == inject_Z n <-> q = Qred (Qmake n (Z.to_pos (10 ^ Z.of_nat k)))).
Proof.
  intros L. rewrite <- (red_iff q _ L). assert (0 < 10 ^ Z.of_nat k)%Z by (apply Z.pow_pos_nonneg; lia).
  unfold Qeq, inject_Z, Qmult. cbn [Qnum Qden]. rewrite Pos.mul_1_r, Z2Pos.id by auto.
  split; intros E; nia.
Qed.

Lemma num_value_iff w v : num_value w = Some v <-> num_denotes w v.
Proof.
  unfold num_value, digits. split.
  - destruct (double_under w) eqn:D; [discriminate|]. apply double_no in D.
    pose proof (split_spec w) as S. destruct (split_point w) as [a [b|]].
    + destruct S as (p & -> & P & Na). destruct (existsb is_point b) eqn:Pb; [discriminate|].
      apply point_no in Pb. rewrite <- filter_app.
      destruct (filter is_digit (a ++ b)) as [|d ds] eqn:E; [discriminate|]. intros H.
      remember (Qred _) as q eqn:Hq in H. injection H as <-.
      apply nd_frac; auto.
      * apply point_iff; auto.
      * destruct (existsb is_digit (a ++ b)) eqn:X; [apply existsb_exists in X; exact X|].
        exfalso. rewrite (proj2 (digits_nil (a ++ b))) in E; [discriminate|].
        intros (c & I & Dc). assert (existsb is_digit (a ++ b) = true) by (apply existsb_exists; eauto). congruence.
      * rewrite Hq. apply lowest_red.
      * apply frac_iff; [rewrite Hq; apply lowest_red|]. rewrite E, <- decimal_dec; [exact Hq|].
        rewrite <- E. apply digits_all.
    + destruct S as [-> Nw]. destruct (filter is_digit w) as [|d ds] eqn:E; [discriminate|].
      intros H. injection H as <-. rewrite decimal_dec by (rewrite <- E; apply digits_all). rewrite <- E.
      apply nd_int; auto. exists d. apply filter_In. rewrite E. left; auto.
  - intros H. destruct H as [w Np Hd Nd|a p b q Na P Nb Hd Nd L E].
    + rewrite (proj2 (double_no w) Nd). pose proof (split_spec w) as S.
      destruct (split_point w) as [a [b|]].
      * destruct S as (p & -> & P & _). exfalso. apply Np. exists p. split; [apply in_or_app; right; left; auto|].
        apply point_iff; auto.
      * destruct S as [-> _]. destruct (filter is_digit w) as [|d ds] eqn:F; [apply digits_nil in F; contradiction|].
        rewrite decimal_dec by (rewrite <- F; apply digits_all). reflexivity.
    + rewrite (proj2 (double_no _) Nd), (split_at a p b) by (auto; apply point_iff; auto).
      rewrite (proj2 (point_no b) Nb). rewrite <- filter_app.
      destruct (filter is_digit (a ++ b)) as [|d ds] eqn:F; [apply digits_nil in F; contradiction|].
      rewrite <- F in *. apply (frac_iff _ _ _ L) in E.
      rewrite decimal_dec by apply digits_all. rewrite F in *. congruence.
Qed.
Lemma num_none_iff w : num_value w = None <-> has_double w \/ two_points w \/ ~ has_digit w.
Proof.
  unfold num_value, digits. destruct (double_under w) eqn:D.
  { apply double_iff in D. split; auto. }
  apply double_no in D. pose proof (split_spec w) as S. destruct (split_point w) as [a [b|]].
  - destruct S as (p & -> & P & Na). destruct (existsb is_point b) eqn:Pb.
    + split; auto. intros _. right; left. exists a, p, b. split; auto. split; [apply point_iff; auto|apply point_ex; auto].
    + rewrite <- filter_app. assert (Hd : has_digit (a ++ p :: b) <-> has_digit (a ++ b)).
      { unfold has_digit. split; intros (c & I & Dc); exists c; split; auto; apply in_app_or in I; apply in_or_app;
          destruct I as [I|I]; auto.
        - destruct I as [<-|I]; auto. exfalso. apply point_iff in P. destruct P as [-> | ->]; discriminate.
        - right; right; auto. }
      destruct (filter is_digit (a ++ b)) as [|d ds] eqn:F.
      * split; auto. intros _. right; right. rewrite Hd. apply digits_nil; auto.
      * split; [discriminate|]. intros [H|[H|H]]; exfalso.
        -- contradiction.
        -- destruct H as (u & p' & v & E & Pp & Hv). apply point_no in Pb.
           assert (C : forall u a, a ++ p :: b = u ++ p' :: v -> has_point a \/ has_point b).
           { clear -Pp Hv. induction u as [|x u IH]; intros [|y a] E; cbn in E; injection E as E1 E2; subst.
             - right; auto.
             - left. exists p'. split; [left; auto|auto].
             - right. exists p'. split; [apply in_or_app; right; left; auto|auto].
             - destruct (IH a E2) as [(c & I & Pc)|H]; [left|right; auto]. exists c. split; [right; auto|auto]. }
           destruct (C u a E); contradiction.
        -- rewrite Hd in H. apply digits_nil in H. congruence.
  - destruct S as [-> Np]. destruct (filter is_digit w) as [|d ds] eqn:F.
    + split; auto. intros _. right; right. apply digits_nil; auto.
    + split; [discriminate|]. intros [H|[H|H]]; exfalso.
      * contradiction.
      * destruct H as (u & p & v & -> & P & _). apply Np. exists p. split; auto. apply in_or_app; right; left; auto.
      * apply digits_nil in H. congruence.
Qed.

Section P.
Context `{U : Unicode}.

(** ** C18 *)
(** In any place of a document, ... *)
Theorem C18_literal inc lim d fields w x v y :
  ev_atom inc lim d fields (ANum w) x = Some (v, y) <-> num_denotes w v /\ y = x.
Proof.
  cbn [ev_atom]. rewrite <- num_value_iff. unfold elift, eret, efail. destruct (num_value w) as [u|].
  - split; [intros E; inversion E; auto|intros [E ->]; congruence].
  - split; [discriminate|intros [E _]; discriminate].
Qed.
(** ... and as a text: f: w loads to the Obj with the field f of that value ... *)
Theorem C18_load fs g f w s o : legal_field f -> num_text w -> ws s ->
  (from_str fs g (f ++ lit ":" ++ s ++ w) = Some (OOk o) <->
   exists v, num_denotes w v /\ o = MkObj (g_next g) [(f, v)] None).
Proof.
  intros Hf Hw Hs. change (f ++ lit ":" ++ s ++ w) with (f ++ c_colon :: s ++ w).
  rewrite (one_ok fs g f (Ex (ANum w) []) w s o Hf); [|apply atom_expr; constructor; auto|auto].
  unfold expr_meaning. rewrite ev_atom_expr. split.
  - intros (v & x & E & ->). apply C18_literal in E as [E ->]. eauto.
  - intros (v & E & ->). exists v, ([], init_sh g). split; auto. apply C18_literal. auto.
Qed.
(** ... or is an error exactly in the three cases. *)
Theorem C18_errors fs g f w s : legal_field f -> num_text w -> ws s ->
  ((exists e, from_str fs g (f ++ lit ":" ++ s ++ w) = Some (OErr e)) <->
   has_double w \/ two_points w \/ ~ has_digit w).
Proof.
  intros Hf Hw Hs. change (f ++ lit ":" ++ s ++ w) with (f ++ c_colon :: s ++ w).
  rewrite (one_err fs g f (Ex (ANum w) []) w s Hf); [|apply atom_expr; constructor; auto|auto].
  unfold expr_meaning. rewrite ev_atom_expr, <- num_none_iff. cbn [ev_atom].
  unfold elift, eret, efail. destruct (num_value w); split; congruence.
Qed.
Example C18_ex : num_denotes (lit "1_2,50") (VFrac (Qmake 25 2)) /\ num_denotes (lit "1_000") (VInt 1000) /\
  num_text (lit "1_2,50").
Proof.
  split; [apply num_value_iff; reflexivity|]. split; [apply num_value_iff; reflexivity|].
  exists 49, (lit "_2,50"). repeat split; try reflexivity; [discriminate|]. repeat constructor.
Qed.

(** ** C19 *)
Lemma escape_iff c d : schar_value (SEsc c) = Some d <-> escape c d.
Proof.
  split.
  - unfold schar_value, escapes. cbn [find fst snd].
    repeat match goal with |- context [?a =? c] => destruct (N.eqb_spec a c) as [<-|] end;
      intros E; inversion E; constructor.
  - intros H; destruct H; reflexivity.
Qed.
Lemma sd_inv_plain c t s : c <> c_bslash -> str_denotes (c :: t) s -> exists s', s = c :: s' /\ str_denotes t s'.
Proof. intros N H. inversion H; subst; [eauto|congruence]. Qed.
Lemma sd_inv_esc c t s : str_denotes (c_bslash :: c :: t) s -> exists d s', s = d :: s' /\ escape c d /\ str_denotes t s'.
Proof. intros H. inversion H; subst; [congruence|eauto 6]. Qed.
Lemma str_value_iff cs : Forall schar_ok cs -> forall s,
  str_value cs = Some s <-> str_denotes (flat_map schar_text cs) s.
Proof.
  unfold str_value. induction cs as [|x cs IH]; intros F s.
  - cbn. split; [intros E; inversion E; constructor|intros H; inversion H; auto].
  - inversion F as [|? ? Hx Hcs]; subst. specialize (IH Hcs). destruct x as [c|c]; cbn [flat_map schar_text map app].
    + cbn [schar_value all_some]. destruct Hx as [H1 H2]. destruct (all_some _) as [r|].
      * split; [intros E; inversion E; subst; constructor; auto; apply IH; auto|].
        intros H. apply sd_inv_plain in H as (s' & -> & H); auto. apply IH in H. injection H as ->. reflexivity.
      * split; [discriminate|]. intros H. apply sd_inv_plain in H as (s' & -> & H); auto. apply IH in H. discriminate.
    + destruct (schar_value (SEsc c)) as [d|] eqn:E; cbn [all_some].
      * destruct (all_some _) as [r|].
        -- split; [intros K; inversion K; subst; constructor; [apply escape_iff; auto|apply IH; auto]|].
           intros H. apply sd_inv_esc in H as (d' & s' & -> & He & H). apply escape_iff in He. apply IH in H.
           injection H as ->. rewrite E in He. injection He as ->. reflexivity.
        -- split; [discriminate|]. intros H. apply sd_inv_esc in H as (d' & s' & -> & He & H). apply IH in H. discriminate.
      * split; [discriminate|]. intros H. apply sd_inv_esc in H as (d' & s' & -> & He & H). apply escape_iff in He. congruence.
Qed.

(** Texts between quotes: escapes are pairs. *)
Definition quoted (t : str) : Prop := exists cs, Forall schar_ok cs /\ t = flat_map schar_text cs.
(** f: "t" loads to the field f with the denoted string, and fails iff t denotes none. *)
Theorem C19_load fs g f t w o : legal_field f -> quoted t -> ws w ->
  (from_str fs g (f ++ lit ":" ++ w ++ [c_quote] ++ t ++ [c_quote]) = Some (OOk o) <->
   exists s, str_denotes t s /\ o = MkObj (g_next g) [(f, VStr s)] None).
Proof.
  intros Hf (cs & F & ->) Hw.
  change (f ++ lit ":" ++ w ++ [c_quote] ++ flat_map schar_text cs ++ [c_quote])
    with (f ++ c_colon :: w ++ (c_quote :: flat_map schar_text cs ++ [c_quote])).
  rewrite (one_ok fs g f (Ex (AStr cs) []) _ w o Hf); [|apply atom_expr; constructor; auto|auto].
  unfold expr_meaning. rewrite ev_atom_expr. cbn [ev_atom]. split.
  - intros (v & x & E & ->). destruct (str_value cs) as [s|] eqn:S; [|discriminate]. inversion E; subst.
    exists s. split; [apply str_value_iff; auto|reflexivity].
  - intros (s & H & ->). apply str_value_iff in H; auto. rewrite H. exists (VStr s), ([], init_sh g). auto.
Qed.
Theorem C19_errors fs g f t w : legal_field f -> quoted t -> ws w ->
  ((exists e, from_str fs g (f ++ lit ":" ++ w ++ [c_quote] ++ t ++ [c_quote]) = Some (OErr e)) <->
   ~ exists s, str_denotes t s).
Proof.
  intros Hf (cs & F & ->) Hw.
  change (f ++ lit ":" ++ w ++ [c_quote] ++ flat_map schar_text cs ++ [c_quote])
    with (f ++ c_colon :: w ++ (c_quote :: flat_map schar_text cs ++ [c_quote])).
  rewrite (one_err fs g f (Ex (AStr cs) []) _ w Hf); [|apply atom_expr; constructor; auto|auto].
  unfold expr_meaning. rewrite ev_atom_expr. cbn [ev_atom]. pose proof (str_value_iff cs F) as I.
  destruct (str_value cs) as [s|]; cbn.
  - split; [discriminate|]. intros N. exfalso. apply N. exists s. apply I. reflexivity.
  - split; auto. intros _ (s & H). apply I in H. discriminate.
Qed.

(** The formatter's text of s is one of these and denotes s. *)
Definition quote_char (c : char) : schar :=
  match get_char_map c with Some [_; e] => SEsc e | _ => SPlain c end.
Lemma quote_text s : replace_all s = flat_map schar_text (map quote_char s).
Proof.
  induction s as [|c s IH]; [reflexivity|]. cbn [replace_all map flat_map]. rewrite IH. f_equal.
  unfold quote_char, get_char_map.
  repeat match goal with |- context [if c =? ?a then _ else _] => destruct (N.eqb_spec c a) as [->|]; [reflexivity|] end.
  reflexivity.
Qed.
Lemma quote_ok s : Forall schar_ok (map quote_char s).
Proof.
  apply Forall_forall. intros x H. apply in_map_iff in H as (c & <- & _). unfold quote_char, get_char_map.
  repeat match goal with |- context [if c =? ?a then _ else _] => destruct (N.eqb_spec c a) as [->|]; [exact I|] end.
  split; auto.
Qed.
Lemma quote_value s : str_value (map quote_char s) = Some s.
Proof.
  unfold str_value. induction s as [|c s IH]; [reflexivity|]. cbn [map].
  assert (E : schar_value (quote_char c) = Some c).
  { unfold quote_char, get_char_map.
    repeat match goal with |- context [if c =? ?a then _ else _] => destruct (N.eqb_spec c a) as [->|]; [reflexivity|] end.
    reflexivity. }
  rewrite E. cbn [all_some]. rewrite IH. reflexivity.
Qed.
Theorem C19_quoting_inverse s : exists t, format_str s = [c_quote] ++ t ++ [c_quote] /\ quoted t /\ str_denotes t s.
Proof.
  exists (replace_all s). split; [reflexivity|]. rewrite quote_text. split.
  - exists (map quote_char s). split; auto. apply quote_ok.
  - apply str_value_iff; [apply quote_ok|apply quote_value].
Qed.
(** Hence the round trip through the parser, for every string. *)
Theorem C19_round_trip fs g f s w : legal_field f -> ws w ->
  from_str fs g (f ++ lit ":" ++ w ++ format_str s) = Some (OOk (MkObj (g_next g) [(f, VStr s)] None)).
Proof.
  intros Hf Hw. destruct (C19_quoting_inverse s) as (t & -> & Q & D). apply C19_load; eauto.
Qed.
Lemma str_denotes_fun t s : str_denotes t s -> forall s', str_denotes t s' -> s = s'.
Proof.
  induction 1 as [|c t s N1 N2 H IH|c d t s E H IH]; intros s' H'.
  - inversion H'; auto.
  - apply sd_inv_plain in H' as (s2 & -> & H'); auto. f_equal; auto.
  - apply sd_inv_esc in H' as (d' & s2 & -> & E' & H'). apply escape_iff in E, E'. f_equal; [congruence|auto].
Qed.
Example C19_ex : str_denotes (lit "a\n\$") [97; 10; 36] /\ quoted (lit "\q") /\ ~ (exists s, str_denotes (lit "\q") s).
Proof.
  split; [repeat constructor; discriminate|]. split; [exists [SEsc 113]; split; [repeat constructor|reflexivity]|].
  intros (s & H). apply (sd_inv_esc 113 []) in H as (d & s' & _ & E & _). inversion E.
Qed.
End P.
