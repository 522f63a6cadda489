(** * PropLayout: C54, the layout of written text. *)
From Verif Require Import FormatProofs ValueSpec Roundtrip.
From Coq Require Import Lia.
From Coq Require String.
Import String.StringSyntax.
Open Scope N_scope.

(** ** Specification: a written value is a list of lines, each with its level. *)
Definition line : Type := nat * str.
Definition deeper (l : line) : line := (S (fst l), snd l).
(** [p] before the first line, [q] after the last one. *)
Definition before_first (p : str) (b : list line) : list line :=
  match b with [] => [] | (n, t) :: b' => (n, p ++ t) :: b' end.
Fixpoint after_last (b : list line) (q : str) : list line :=
  match b with [] => [] | [(n, t)] => [(n, t ++ q)] | l :: b' => l :: after_last b' q end.
(** A list of elements between brackets: none or one on the same line, more on lines of their own. *)
Definition enclose (op cl : str) (bs : list (list line)) : list line :=
  match bs with
  | [] => [(O, op ++ cl)]
  | [b] => after_last (before_first op b) cl
  | _ => (O, op) :: map deeper (concat bs) ++ [(O, cl)]
  end.
(** Characters in a string. *)
Definition written_char (c : char) : str :=
  match assoc [c] [([92], lit "\\"); ([34], [92; 34]); ([39], lit "\'"); ([36], lit "\$"); ([10], lit "\n"); ([13], lit "\r"); ([9], lit "\t")] with
  | Some w => w
  | None => [c]
  end.
Definition written_int (z : Z) : str := (if (z <? 0)%Z then lit "-" else []) ++ N_to_dec (Z.abs_N z).
Definition written_frac (q : Q) : str :=
  if (Zpos (Qden q) =? 1)%Z then written_int (Qnum q) ++ lit ".0" else written_int (Qnum q) ++ lit "/" ++ written_int (Zpos (Qden q)).

Fixpoint block (v : value) : list line :=
  match v with
  | VNull => [(O, lit "null")]
  | VBool b => [(O, if b then lit "true" else lit "false")]
  | VInt z => [(O, written_int z)]
  | VFrac q => [(O, written_frac q)]
  | VStr s => [(O, [34] ++ flat_map written_char s ++ [34])]
  | VArr (MkArr _ _ vs) => enclose (lit "[") (lit "]") (map block vs)
  | VTup (MkTup _ _ vs) => enclose (lit "(") (lit ")") (map block vs)
  | VObj o => match obj_lines o with [] => [(O, lit "{}")] | ls => (O, lit "{") :: map deeper ls ++ [(O, lit "}")] end
  end
(** The fields of an Obj, the parent first. *)
with obj_lines (o : obj) : list line :=
  match o with
  | MkObj _ ps par =>
      match par with
      | Some p => before_first (lit "^: ") match obj_lines p with [] => [(O, lit "{}")] | ls => (O, lit "{") :: map deeper ls ++ [(O, lit "}")] end
      | None => []
      end ++ flat_map (fun fv => match fv with (f, v) => before_first (f ++ lit ": ") (block v) end) ps
  end.
(** Four blanks per level; a newline after every line. *)
Definition line_text (l : line) : str := repeat 32 (4 * fst l) ++ snd l ++ [10].
Definition text_of (ls : list line) : str := concat (map line_text ls).

(** ** Proof *)
Definition at_level (L : nat) (l : line) : line := ((L + fst l)%nat, snd l).
Definition rnl (L : nat) (b : list line) : str := text_of (map (at_level L) b).
Lemma rnl_app L a b : rnl L (a ++ b) = rnl L a ++ rnl L b.
Proof. unfold rnl, text_of. rewrite !map_app, concat_app. reflexivity. Qed.
Lemma rnl_cons L l b : rnl L (l :: b) = line_text (at_level L l) ++ rnl L b.
Proof. reflexivity. Qed.
Lemma rnl_deeper L b : rnl L (map deeper b) = rnl (S L) b.
Proof.
  unfold rnl, text_of. rewrite !map_map. f_equal. apply map_ext. intros [n t]. unfold line_text, at_level, deeper. cbn [fst snd].
  replace (L + S n)%nat with (S L + n)%nat by lia. reflexivity.
Qed.
(** A block that begins on the line of its place. *)
Definition headed (b : list line) : Prop := exists t b', b = (O, t) :: b'.
Lemma before_headed p b : headed b -> headed (before_first p b).
Proof. intros (t & b' & ->). cbn. eexists _, _. reflexivity. Qed.
Lemma after_headed b q : headed b -> headed (after_last b q).
Proof. intros (t & [|l b'] & ->); cbn; eexists _, _; reflexivity. Qed.
Lemma before_text L p b X : headed b -> repeat 32 (4 * L) ++ X = rnl L b -> repeat 32 (4 * L) ++ p ++ X = rnl L (before_first p b).
Proof.
  intros (t & b' & ->). cbn [before_first]. rewrite !rnl_cons. unfold line_text, at_level. cbn [fst snd]. rewrite Nat.add_0_r.
  rewrite <- !app_assoc. intros E. apply app_inv_head in E. rewrite E. reflexivity.
Qed.
Lemma after_text L q b X : b <> [] -> X ++ [10] = rnl L b -> X ++ q ++ [10] = rnl L (after_last b q).
Proof.
  intros N. revert X. induction b as [|[n t] b IH]; intros X E; [congruence|]. destruct b as [|l b].
  - cbn [after_last]. rewrite rnl_cons in *. unfold line_text, at_level, rnl, text_of in *. cbn [fst snd map concat] in *. rewrite app_nil_r in *.
    rewrite app_assoc in E. apply app_inv_tail in E. subst X. rewrite <- !app_assoc. reflexivity.
  - change (after_last ((n, t) :: l :: b) q) with ((n, t) :: after_last (l :: b) q). rewrite rnl_cons in *.
    set (h := line_text _) in *. assert (exists Y, rnl L (l :: b) = Y ++ [10]) as (Y & EY).
    { clear. revert l. induction b as [|m b IH]; intros l.
      - rewrite rnl_cons. exists (repeat 32 (4 * fst (at_level L l)) ++ snd (at_level L l)). unfold line_text, rnl, text_of. cbn. rewrite app_nil_r, <- app_assoc. reflexivity.
      - rewrite rnl_cons. destruct (IH m) as (Y & ->). eexists. rewrite app_assoc. reflexivity. }
    rewrite <- (IH ltac:(discriminate) Y); [|symmetry; exact EY]. rewrite EY, app_assoc in E. apply app_inv_tail in E. subst X.
    rewrite <- app_assoc. reflexivity.
Qed.

Lemma indent_level L : indent (N.of_nat (4 * L)) = repeat 32 (4 * L).
Proof. unfold indent. rewrite Nat2N.id. reflexivity. Qed.
Lemma written_int_dec z : written_int z = Z_to_dec z.
Proof. destruct z; reflexivity. Qed.
Lemma written_frac_fmt q : written_frac q = format_frac q.
Proof.
  unfold written_frac, format_frac, ratio_show. rewrite !written_int_dec. destruct (Pos.eqb (Qden q) 1) eqn:E.
  - replace (Z.pos (Qden q) =? 1)%Z with true; auto.
  - replace (Z.pos (Qden q) =? 1)%Z with false; auto.
Qed.
Lemma written_chars s : flat_map written_char s = replace_all s.
Proof.
  induction s as [|c s IH]; [reflexivity|]. cbn [flat_map replace_all]. rewrite IH. f_equal.
  unfold written_char, get_char_map. cbn [assoc str_eqb list_eqb]. rewrite !andb_true_r, !(N.eqb_sym _ c).
  repeat match goal with |- context [c =? ?k] => destruct (c =? k); [reflexivity|] end. reflexivity.
Qed.

Lemma layout :
  (forall v L, headed (block v) /\ repeat 32 (4 * L) ++ fmt (N.of_nat (4 * S L)) v ++ [10] = rnl L (block v)) /\
  (forall o L, fmt_body (N.of_nat (4 * L)) o = rnl L (obj_lines o) /\
     (headed (block (VObj o)) /\ repeat 32 (4 * L) ++ fmt (N.of_nat (4 * S L)) (VObj o) ++ [10] = rnl L (block (VObj o)))).
Proof.
  assert (one : forall L t, headed [(O, t)] /\ repeat 32 (4 * L) ++ t ++ [10] = rnl L [(O, t)]).
  { intros L t. split; [eexists _, _; reflexivity|]. unfold rnl, text_of, line_text, at_level. cbn [map concat fst snd].
    rewrite Nat.add_0_r, app_nil_r. reflexivity. }
  assert (many : forall op cl vs, Forall (fun v => forall L, headed (block v) /\ repeat 32 (4 * L) ++ fmt (N.of_nat (4 * S L)) v ++ [10] = rnl L (block v)) vs ->
    forall L, headed (enclose op cl (map block vs)) /\
    repeat 32 (4 * L) ++ match vs with
      | [] => op ++ cl
      | [v] => op ++ fmt (N.of_nat (4 * S L)) v ++ cl
      | _ => op ++ [c_nl] ++ concat (map (fun v => indent (N.of_nat (4 * S L)) ++ fmt (N.of_nat (4 * S L) + 4) v ++ [c_nl]) vs) ++
             indent (N.of_nat (4 * S L) - 4) ++ cl
      end ++ [10] = rnl L (enclose op cl (map block vs))).
  { intros op cl vs F L. destruct vs as [|v [|w vs]].
    - apply one.
    - apply Forall_inv in F. destruct (F L) as [Hh E]. cbn [map enclose]. split; [apply after_headed, before_headed, Hh|].
      apply (before_text L op) in E; auto. rewrite <- !app_assoc in *. rewrite !app_assoc in *.
      rewrite <- (app_assoc _ cl [10]). apply after_text; [|exact E].
      destruct (before_headed op _ Hh) as (? & ? & ->). discriminate.
    - assert (B : forall us, Forall (fun v => forall L, headed (block v) /\ repeat 32 (4 * L) ++ fmt (N.of_nat (4 * S L)) v ++ [10] = rnl L (block v)) us ->
        concat (map (fun v => indent (N.of_nat (4 * S L)) ++ fmt (N.of_nat (4 * S L) + 4) v ++ [c_nl]) us) = rnl (S L) (concat (map block us))).
      { clear. intros us F. induction F as [|u us Hu F IH]; [reflexivity|]. cbn [map concat]. rewrite rnl_app, <- IH. f_equal.
        rewrite indent_level. replace (N.of_nat (4 * S L) + 4) with (N.of_nat (4 * S (S L))) by lia. apply Hu. }
      specialize (B _ F). split; [eexists _, _; reflexivity|].
      change (enclose op cl (map block (v :: w :: vs))) with ((O, op) :: map deeper (concat (map block (v :: w :: vs))) ++ [(O, cl)]).
      cbv iota. rewrite rnl_cons, rnl_app, rnl_deeper.
      rewrite B. replace (N.of_nat (4 * S L) - 4) with (N.of_nat (4 * L)) by lia. rewrite indent_level.
      destruct (one L cl) as [_ <-]. unfold line_text, at_level. cbn [fst snd]. rewrite Nat.add_0_r, <- !app_assoc. reflexivity. }
  apply value_obj_ind2.
  - intros L. apply one.
  - intros [] L; apply one.
  - intros z L. cbn [block fmt]. rewrite <- written_int_dec. apply one.
  - intros q L. cbn [block fmt]. rewrite <- written_frac_fmt. apply one.
  - intros s L. cbn [block fmt]. unfold format_str. rewrite <- written_chars. apply one.
  - intros id t vs IH L. cbn [block fmt]. apply (many (lit "[") (lit "]") vs IH L).
  - intros id t vs IH L. cbn [block fmt]. apply (many (lit "(") (lit ")") vs IH L).
  - intros o IH L. apply IH.
  - intros id ps par IH IHp L. 
    assert (B : forall L, fmt_body (N.of_nat (4 * L)) (MkObj id ps par) = rnl L (obj_lines (MkObj id ps par))).
    { clear L. intros L. rewrite fmt_body_unfold. cbn [obj_lines]. rewrite rnl_app.
      replace (N.of_nat (4 * L) + 4) with (N.of_nat (4 * S L)) by lia. rewrite indent_level. f_equal.
      - destruct par as [p|]; [|reflexivity]. destruct (IHp p eq_refl L) as (_ & Hh & E). 
        apply (before_text L (lit "^: ")) in E; auto.
      - clear IHp. induction ps as [|[f v] ps IHs]; [reflexivity|]. cbn [map concat flat_map]. rewrite rnl_app. inversion_clear IH as [|? ? Hv Hs].
        rewrite (IHs Hs). f_equal. destruct (Hv L) as [Hh E]. apply (before_text L (f ++ lit ": ")) in E; auto. rewrite <- E.
        rewrite <- !app_assoc. reflexivity. }
    split; [apply B|]. rewrite fmt_obj_unfold. cbn [block].
    assert (NE : forall p b, headed b -> before_first p b <> []) by (intros p b (? & ? & ->); discriminate).
    assert (Z : obj_lines (MkObj id ps par) = [] -> ps = [] /\ par = None).
    { cbn [obj_lines]. intros E. apply app_eq_nil in E. destruct E as [E1 E2]. split.
      - destruct ps as [|[f v] ps]; [reflexivity|]. cbn [flat_map] in E2. apply app_eq_nil in E2. destruct E2 as [E2 _].
        apply Forall_inv in IH. cbn in IH. exfalso. revert E2. apply NE. apply (IH O).
      - destruct par as [p|]; [|reflexivity]. exfalso. revert E1. apply NE. apply (IHp p eq_refl O). }
    set (ls := obj_lines (MkObj id ps par)) in *. destruct ls as [|l ls'] eqn:El.
    + destruct (Z eq_refl) as [-> ->]. apply one.
    + split; [eexists _, _; reflexivity|]. rewrite <- El in *. clear Z.
      rewrite rnl_cons, rnl_app, rnl_deeper, <- B. destruct (one L (lit "}")) as [_ <-].
      unfold line_text, at_level. cbn [fst snd]. rewrite Nat.add_0_r. 
      replace (N.of_nat (4 * S L) - 4) with (N.of_nat (4 * L)) by lia. rewrite indent_level.
      replace (match ps with [] => _ | _ => _ end) with (lit "{" ++ [c_nl] ++ fmt_body (N.of_nat (4 * S L)) (MkObj id ps par) ++ repeat 32 (4 * L) ++ lit "}").
      * rewrite <- !app_assoc. reflexivity.
      * destruct ps; auto. destruct par; auto. discriminate El.
Qed.

Lemma rnl_0 b : rnl 0 b = text_of b.
Proof. unfold rnl. f_equal. rewrite <- (map_id b) at 2. apply map_ext. intros [n t]. reflexivity. Qed.

(** ** C54 *)
(** The written text is exactly the lines of the specification. *)
Theorem C54_written_lines o : write_to_string o = Some (text_of (obj_lines o)).
Proof. rewrite write_to_string_fmt. f_equal. rewrite <- rnl_0. apply (proj1 (proj2 layout o O)). Qed.
(** Displaying a value shows its lines (without the last newline). *)
Theorem C54_display v : exists text, value_display v = Some text /\ text ++ [10] = text_of (block v).
Proof.
  exists (fmt 4 v). split; [apply value_display_fmt|]. rewrite <- rnl_0. apply (proj2 (proj1 layout v O)).
Qed.
Theorem C54_obj_display o : exists text, obj_display o = Some text /\ text ++ [10] = text_of (block (VObj o)).
Proof.
  exists (fmt 4 (VObj o)). split; [apply obj_display_fmt|]. rewrite <- rnl_0. apply (proj2 (proj1 layout (VObj o) O)).
Qed.

(** The same for an Arr or a Tup shown by itself. *)
Theorem C54_arr_tup_display :
  (forall a, exists text, arr_display a = Some text /\ text ++ [10] = text_of (block (VArr a))) /\
  (forall t, exists text, tup_display t = Some text /\ text ++ [10] = text_of (block (VTup t))).
Proof. split; intros x; [exact (C54_display (VArr x))|exact (C54_display (VTup x))]. Qed.

(** The lines are lines of the text: they contain no newline (nor tab or carriage return), and neither begin nor end with a
    blank, so that their indentation can be read off. *)
Fixpoint split_lines (t : str) : list str :=
  match t with
  | [] => [[]]
  | c :: t' => if c =? 10 then [] :: split_lines t' else match split_lines t' with l :: ls => (c :: l) :: ls | [] => [[c]] end
  end.
Definition solid (c : char) : Prop := ~ In c [9; 10; 13].
Definition first_ok (t : str) : Prop := match t with [] => False | c :: _ => c <> 32 end.
Definition tidy (t : str) : Prop := first_ok t /\ first_ok (rev t) /\ Forall solid t.

Lemma first_app p q : first_ok p -> first_ok (p ++ q).
Proof. destruct p; cbn; tauto. Qed.
Lemma tidy_app p t : first_ok p -> Forall solid p -> tidy t -> tidy (p ++ t).
Proof.
  intros P S (A & B & C). split; [apply first_app; auto|]. split; [rewrite rev_app_distr; apply first_app; auto|]. apply Forall_app; auto.
Qed.
Lemma tidy_app_r t q : first_ok (rev q) -> Forall solid q -> tidy t -> tidy (t ++ q).
Proof.
  intros P S (A & B & C). split; [apply first_app; auto|]. split; [rewrite rev_app_distr; apply first_app; auto|]. apply Forall_app; auto.
Qed.
Definition tidy_lines (b : list line) : Prop := Forall (fun l => tidy (snd l)) b.
Lemma tidy_before p b : first_ok p -> Forall solid p -> tidy_lines b -> tidy_lines (before_first p b).
Proof. intros P S T. destruct T as [|[n t] b H T]; [constructor|]. cbn. constructor; auto. apply tidy_app; auto. Qed.
Lemma tidy_after b q : first_ok (rev q) -> Forall solid q -> tidy_lines b -> tidy_lines (after_last b q).
Proof.
  intros P S T. induction T as [|[n t] b H T IH]; [constructor|]. destruct b as [|l b]; cbn; constructor; auto.
  apply tidy_app_r; auto.
Qed.
Lemma tidy_deeper b : tidy_lines b -> tidy_lines (map deeper b).
Proof. intros T. induction T; constructor; auto. Qed.
Ltac tidy_lit := repeat split; try (cbn; discriminate); repeat (constructor; [cbn; let X := fresh in intros X; repeat (destruct X as [X|X]; [discriminate|]); contradiction|]); constructor.
Lemma tidy_enclose op cl bs : tidy op -> tidy cl -> Forall tidy_lines bs -> tidy_lines (enclose op cl bs).
Proof.
  intros O C F. destruct F as [|b bs H F]; [|destruct F as [|b' bs H' F]]; cbn [enclose].
  - constructor; [|constructor]. apply tidy_app; auto; apply O.
  - destruct O as (? & ? & ?), C as (? & ? & ?). apply tidy_after; auto. apply tidy_before; auto.
  - constructor; auto. apply Forall_app. split; [|constructor; auto; constructor]. apply tidy_deeper.
    apply Forall_concat. constructor; auto; constructor; auto.
Qed.
Lemma digit_solid c : is_digit c = true -> solid c /\ c <> 32.
Proof. intros D. apply digit_range in D. unfold solid. cbn. split; [intros H; intuition lia|lia]. Qed.
Lemma tidy_dec n : tidy (N_to_dec n).
Proof.
  pose proof (dec_digits n) as D. pose proof (dec_nonempty n) as E. split; [|split].
  - destruct D as [|c w H D]; [congruence|]. cbn. apply digit_solid; auto.
  - apply Forall_rev in D. destruct (rev (N_to_dec n)) as [|c w] eqn:R.
    + apply (f_equal (@rev _)) in R. rewrite rev_involutive in R. contradiction.
    + cbn. apply Forall_inv in D. apply digit_solid; auto.
  - eapply Forall_impl; [|exact D]. intros c H. apply digit_solid; auto.
Qed.

Lemma tidy_int z : tidy (written_int z).
Proof. unfold written_int. destruct (z <? 0)%Z; [|apply tidy_dec]. apply tidy_app; [discriminate|tidy_lit|apply tidy_dec]. Qed.
Lemma tidy_frac q : tidy (written_frac q).
Proof.
  unfold written_frac. destruct (_ =? _)%Z; [apply tidy_app_r; [discriminate|tidy_lit|apply tidy_int]|].
  apply tidy_app; [apply tidy_int|apply tidy_int|]. apply tidy_app; [discriminate|tidy_lit|apply tidy_int].
Qed.
Lemma tidy_char c : Forall solid (written_char c).
Proof.
  unfold written_char. cbn [assoc str_eqb list_eqb]. rewrite !andb_true_r.
  repeat match goal with |- context [?k =? c] => destruct (N.eqb_spec k c); [tidy_lit|] end.
  constructor; [|constructor]. unfold solid. cbn. intuition.
Qed.
Lemma tidy_str s : tidy ([34] ++ flat_map written_char s ++ [34]).
Proof.
  split; [discriminate|]. split; [rewrite rev_app_distr, rev_app_distr; discriminate|].
  apply Forall_app. split; [tidy_lit|]. apply Forall_app. split; [|tidy_lit]. induction s; cbn; [constructor|].
  apply Forall_app. split; auto. apply tidy_char.
Qed.
Section Wf.
Context `{U : Unicode}.
Lemma name_first f : legal_field f -> first_ok f /\ Forall solid f.
Proof.
  assert (A : forall c, ch_is_alphabetic c = true \/ is_digit c = true \/ c = c_under -> solid c /\ c <> 32).
  { intros c [H|[H| ->]]; [|apply digit_solid; auto|split; [unfold solid; cbn; lia|discriminate]].
    unfold ch_is_alphabetic in H. rewrite !orb_true_iff, !andb_true_iff, !N.leb_le, !N.ltb_lt in H.
    unfold solid. cbn. lia. }
  intros (c & r & -> & H & F & _). split.
  - cbn. apply A. tauto.
  - constructor; [apply A; tauto|]. eapply Forall_impl; [|exact F]. intros d Hd. apply A; auto.
Qed.
Lemma tidy_block :
  (forall v, wf_value good_names v -> tidy_lines (block v)) /\
  (forall o, wf_obj good_names o -> tidy_lines (obj_lines o) /\ tidy_lines (block (VObj o))).
Proof.
  assert (one : forall t, tidy t -> tidy_lines [(O, t)]) by (intros; constructor; auto; constructor).
  assert (E : forall op cl vs, tidy op -> tidy cl -> Forall (fun v => wf_value good_names v -> tidy_lines (block v)) vs ->
    Forall (wf_value good_names) vs -> tidy_lines (enclose op cl (map block vs))).
  { intros op cl vs O C IH W. apply tidy_enclose; auto. rewrite Forall_forall in *. intros b I. apply in_map_iff in I.
    destruct I as (v & <- & I). auto. }
  apply value_obj_ind2.
  - intros _. apply one. tidy_lit.
  - intros [] _; cbn [block]; apply one; tidy_lit.
  - intros z _. apply one, tidy_int.
  - intros q _. apply one, tidy_frac.
  - intros s _. apply one, tidy_str.
  - intros id t vs IH W. inversion_clear W. cbn [block]. apply E; auto; tidy_lit.
  - intros id t vs IH W. inversion_clear W. cbn [block]. apply E; auto; tidy_lit.
  - intros o IH W. inversion_clear W. apply IH. auto.
  - intros id ps par IH IHp W. inversion_clear W as [? ? ? G Wv Wp].
    assert (T : tidy_lines (obj_lines (MkObj id ps par))).
    { cbn [obj_lines]. apply Forall_app. split.
      - destruct par as [p|]; [|constructor]. apply tidy_before; [discriminate|tidy_lit|]. apply (IHp p eq_refl). auto.
      - destruct G as [_ G]. clear IHp Wp. induction ps as [|[f v] ps IHs]; [constructor|]. cbn [map flat_map] in *.
        inversion_clear G. inversion_clear Wv. inversion_clear IH. apply Forall_app. split; [|apply IHs; auto].
        destruct (name_first f) as [A B]; auto. apply tidy_before; auto; [apply first_app; auto|]. apply Forall_app. split; auto. tidy_lit. }
    split; [exact T|]. cbn [block]. destruct (obj_lines _) as [|l ls]; [apply one; tidy_lit|].
    constructor; [tidy_lit|]. apply Forall_app. split; [apply tidy_deeper; auto|apply one; tidy_lit].
Qed.
Lemma split_line a b : ~ In 10 a -> split_lines (a ++ 10 :: b) = a :: split_lines b.
Proof.
  induction a as [|c a IH]; intros N; [reflexivity|]. cbn [app split_lines]. rewrite IH by (intros I; apply N; cbn; auto).
  replace (c =? 10) with false; auto. symmetry. apply N.eqb_neq. intros ->. apply N. cbn. auto.
Qed.
Theorem C54_lines_are_lines o text : wf_obj good_names o -> write_to_string o = Some text ->
  split_lines text = map (fun l => repeat 32 (4 * fst l) ++ snd l) (obj_lines o) ++ [[]] /\
  Forall (fun l => tidy (snd l)) (obj_lines o).
Proof.
  intros W E. rewrite C54_written_lines in E. injection E as <-. destruct (proj2 tidy_block o W) as [T _]. split; [|exact T].
  unfold text_of. revert T. generalize (obj_lines o). intros ls T. induction T as [|[n t] ls H T IH]; [reflexivity|].
  cbn [map concat app fst snd]. unfold line_text at 1. cbn [fst snd]. rewrite <- !app_assoc. cbn [app]. rewrite app_assoc, split_line, IH; [reflexivity|].
  intros I. apply in_app_or in I. destruct I as [I|I]; [apply repeat_spec in I; discriminate|].
  destruct H as (_ & _ & S). rewrite Forall_forall in S. apply (S _ I). cbn. auto.
Qed.
End Wf.

(** Only an empty Obj is written as nothing; every other text ends with a newline. *)
Theorem C54_empty o : write_to_string o = Some [] <-> obj_pairs o = [] /\ obj_parent o = None.
Proof.
  rewrite C54_written_lines. destruct o as [id ps par]. cbn [obj_pairs obj_parent]. split; [|intros [-> ->]; reflexivity].
  assert (NE : forall p v, before_first p (block v) <> []).
  { intros p v. destruct (proj1 (proj1 layout v O)) as (? & ? & ->). discriminate. }
  cbn [obj_lines]. intros E. injection E as E. unfold text_of in E. rewrite map_app, concat_app in E. apply app_eq_nil in E.
  assert (L : forall ls, concat (map line_text ls) = [] -> ls = []).
  { intros [|[n t] ls]; auto. cbn. intros H. apply app_eq_nil in H. destruct H as [H _]. unfold line_text in H. apply app_eq_nil in H.
    destruct H as [_ H]. apply app_eq_nil in H. destruct H; discriminate. }
  destruct E as [E1 E2]. apply L in E1, E2. split.
  - destruct ps as [|[f v] ps]; auto. cbn [flat_map] in E2. apply app_eq_nil in E2. destruct E2 as [E2 _]. exfalso. revert E2. apply NE.
  - destruct par as [p|]; auto. exfalso. revert E1. apply (NE (lit "^: ") (VObj p)).
Qed.

(** ** A concrete case *)
Section Ex.
Definition ex_obj : obj :=
  MkObj 7 [(lit "a", VInt (-3));
           (lit "b", VArr (MkArr 2 TInt [VInt 1; VInt 2]));
           (lit "c", VTup (MkTup 3 [TObj] [VObj (MkObj 4 [(lit "x", VFrac (Qmake 1 2)); (lit "y", VStr [65; 10; 34])] None)]));
           (lit "d", VArr (MkArr 5 TAny []))]
    (Some (MkObj 1 [(lit "p", VFrac (Qmake 2 1))] None)).
Example layout_ex : obj_lines ex_obj =
  [(0, lit "^: {"); (1, lit "p: 2.0"); (0, lit "}"); (0, lit "a: -3"); (0, lit "b: ["); (1, lit "1"); (1, lit "2"); (0, lit "]");
   (0, lit "c: ({"); (1, lit "x: 1/2"); (1, lit "y: " ++ [34%N] ++ lit "A\n\" ++ [34; 34]%N); (0, lit "})"); (0, lit "d: []")]%nat.
Proof. vm_compute. reflexivity. Qed.
Example layout_wf_ex : let ascii := {| u_alpha := fun _ => false; u_debug := fun c => [c] |} in
  wf_obj (@good_names ascii) (MkObj 1 [(lit "p", VFrac (Qmake 2 1)); (lit "q", VStr [10])] None).
Proof.
  intros ascii. constructor; [|repeat constructor|discriminate]. split.
  - repeat constructor; cbn; intuition discriminate.
  - repeat constructor.
    + exists 112, []. repeat split; auto; cbn; intuition discriminate.
    + exists 113, []. repeat split; auto; cbn; intuition discriminate.
Qed.
End Ex.

Print Assumptions C54_written_lines.
Print Assumptions C54_display.
Print Assumptions C54_obj_display.
Print Assumptions C54_arr_tup_display.
Print Assumptions C54_lines_are_lines.
Print Assumptions C54_empty.
