(** * PropChars: the character classes of the specifications, spelled out.

    The specifications (Syntax.v, Spot.v) speak of white space, closing brackets, digits and so on through the same
    boolean functions as the model of the code.  Here those functions are pinned to lists of characters that can be
    compared with the documentation of the language (/repo/README.md, /repo/src/parse/util.rs) by eye. *)
From Verif Require Import Base Values Errors Syntax Spot.
From Coq Require Import String Lia.
Import String.StringSyntax.
Open Scope N_scope.

(** The code points with the Unicode property White_Space. *)
Definition white_space : list N :=
  [9; 10; 11; 12; 13; 32; 133; 160; 5760;
   8192; 8193; 8194; 8195; 8196; 8197; 8198; 8199; 8200; 8201; 8202;
   8232; 8233; 8239; 8287; 12288].
Definition digits : str := lit "0123456789".
Definition operators : str := lit "+-*/%".
Definition closers : str := lit ")]}>".

Ltac chars := rewrite ?orb_true_iff, ?andb_true_iff, ?N.eqb_eq, ?N.leb_le; cbn; lia.

Theorem C26_white_space c : ch_is_whitespace c = true <-> In c white_space.
Proof. unfold ch_is_whitespace, white_space. chars. Qed.

(** What may stand between two tokens, without the model's functions: white space, and comments from # to the end of
    the line. *)
Inductive gap : str -> Prop :=
| gap_nil : gap []
| gap_space c w : In c white_space -> gap w -> gap (c :: w)
| gap_comment b w : ~ In 10 b -> gap w -> gap (35 :: b ++ 10 :: w).
Theorem C26_gaps w : ws w <-> gap w.
Proof.
  assert (F : forall b, Forall (fun c => c <> 10) b <-> ~ In 10 b).
  { intros b. rewrite Forall_forall. split; [intros H I; exact (H _ I eq_refl)|intros H x I ->; contradiction]. }
  split; induction 1; constructor; auto; try (apply C26_white_space; assumption); apply F; assumption.
Qed.

Theorem C51_blank_chars c : is_whitespace c = true <-> In c white_space \/ In c (lit "#").
Proof. unfold is_whitespace. rewrite orb_true_iff, C26_white_space. cbn. chars. Qed.
Theorem C51_closing_chars c : is_end_delimiter c = true <-> In c closers.
Proof. unfold is_end_delimiter, closers. chars. Qed.
Theorem C51_end_chars c : is_value_end_char c = true <->
  In c white_space \/ In c (lit "#") \/ In c closers \/ In c operators.
Proof.
  unfold is_value_end_char. rewrite !orb_true_iff, C51_blank_chars, C51_closing_chars.
  unfold is_op. rewrite !orb_true_iff, !N.eqb_eq. unfold operators. cbn. intuition (subst; auto 10).
Qed.
Theorem C51_digit_chars c : is_digit c = true <-> In c digits.
Proof. unfold is_digit, digits. chars. Qed.
Theorem C51_number_chars c : is_numeric_char c = true <-> In c digits \/ In c (lit ".,").
Proof. unfold is_numeric_char. rewrite !orb_true_iff, C51_digit_chars, !N.eqb_eq. cbn. intuition. Qed.

(** The escapes of strings and character literals. *)
Theorem C19_escapes c d : get_escape_char c = Some d <->
  In (c, d) [(92, 92); (34, 34); (39, 39); (36, 36); (110, 10); (114, 13); (116, 9)].
Proof.
  unfold get_escape_char. split.
  - repeat (match goal with |- context [c =? ?k] => destruct (N.eqb_spec c k); [subst; intros [= <-]; cbn; auto 10|] end).
    discriminate.
  - cbn. intros I. repeat (destruct I as [[= <- <-]|I]; [reflexivity|]). contradiction.
Qed.
(** The characters that may start a name, within ASCII: letters and the underscore.  (Beyond ASCII: the letters of
    Unicode, none of which is white space.) *)
Theorem C20_letters `{Unicode} c : c < 128 ->
  letter c <-> In c (lit "ABCDEFGHIJKLMNOPQRSTUVWXYZabcdefghijklmnopqrstuvwxyz_").
Proof.
  intros L. unfold letter, ch_is_alphabetic. replace (127 <? c) with false by (symmetry; apply N.ltb_ge; lia).
  cbn [andb]. rewrite orb_false_r. chars.
Qed.
Theorem C16_operator_chars c op : get_op c = Some op <->
  In (c, op) [(43, BPlus); (45, BMinus); (42, BMult); (47, BDiv); (37, BMod)].
Proof.
  unfold get_op. split.
  - repeat (match goal with |- context [c =? ?k] => destruct (N.eqb_spec c k); [subst; intros [= <-]; cbn; auto 10|] end).
    discriminate.
  - cbn. intros I. repeat (destruct I as [[= <- <-]|I]; [reflexivity|]). contradiction.
Qed.

Example white_example : gap (lit " " ++ [9] ++ lit "# a comment" ++ [10; 8195]) /\ ~ In 8203 white_space.
Proof.
  split; [|cbn; lia]. apply gap_space; [cbn; auto 10|]. apply gap_space; [cbn; auto 10|].
  apply (gap_comment (lit " a comment")); [cbn; lia|]. apply gap_space; [cbn; auto 20|constructor].
Qed.

Print Assumptions C26_gaps.
Print Assumptions C51_end_chars.
Print Assumptions C19_escapes.
Print Assumptions C20_letters.
Print Assumptions C16_operator_chars.
