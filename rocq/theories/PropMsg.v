(** * PropMsg: C53, messages and type names are unambiguous. *)
From Verif Require Import PropBlame PropFault PropLoad PropChars Spot Roundtrip.
From Coq Require Import Lia.
From Coq Require String.
Import String.StringSyntax.
Open Scope N_scope.

(** ** The names of types: no name is the beginning of another one *)
Definition more_types (ts : list ty) : str := flat_map (fun t => lit ", " ++ ty_show t) ts.
Lemma fold_types ts : forall a, fold_left (fun s t => s ++ lit ", " ++ ty_show t) ts a = a ++ more_types ts.
Proof.
  induction ts as [|t ts IH]; intros a; cbn [fold_left more_types flat_map]; [rewrite app_nil_r; reflexivity|].
  rewrite IH. rewrite <- !app_assoc. reflexivity.
Qed.
Fixpoint tsize (t : ty) : nat :=
  match t with
  | TArr t => S (tsize t)
  | TTup ts => S (fold_right (fun t n => (tsize t + n)%nat) 0%nat ts)
  | _ => 1
  end.
Lemma ty_prefix n : forall t1, (tsize t1 <= n)%nat -> forall t2 r1 r2, ty_show t1 ++ r1 = ty_show t2 ++ r2 -> t1 = t2 /\ r1 = r2.
Proof.
  induction n as [|n IH]; [destruct t1; cbn; lia|].
  assert (L : forall ts1, (fold_right (fun t n => (tsize t + n)%nat) 0%nat ts1 <= n)%nat -> forall ts2 r1 r2,
    more_types ts1 ++ lit ")" ++ r1 = more_types ts2 ++ lit ")" ++ r2 -> ts1 = ts2 /\ r1 = r2).
  { induction ts1 as [|t1 ts1 IHl]; intros S [|t2 ts2] r1 r2 E; cbn [more_types flat_map app] in E.
    - injection E as ->. auto.
    - discriminate.
    - discriminate.
    - cbn [fold_right] in S. cbn [lit app] in E. injection E as E. rewrite <- !app_assoc in E.
      apply IH in E; [|lia]. destruct E as [-> E]. apply IHl in E; [|lia]. destruct E as [-> ->]. auto. }
  intros t1 S t2 r1 r2 E. destruct t1; destruct t2; try discriminate E; try (injection E as ->; auto; fail).
  - cbn [ty_show lit app] in E. injection E as E. rewrite <- !app_assoc in E. cbn [tsize] in S.
    apply IH in E; [|lia]. destruct E as [-> E]. injection E as ->. auto.
  - cbn [tsize] in S. destruct ts as [|t ts], ts0 as [|t' ts']; cbn [ty_show] in E; rewrite ?fold_types in E; cbn [lit app] in E.
    + injection E as ->; auto.
    + injection E as E. destruct t'; discriminate E.
    + injection E as E. destruct t; discriminate E.
    + injection E as E. rewrite <- !app_assoc in E. cbn [fold_right] in S. apply IH in E; [|lia]. destruct E as [-> E].
      apply L in E; [|lia]. destruct E as [-> ->]. auto.
Qed.
Theorem C53_type_names t1 t2 : ty_show t1 = ty_show t2 -> t1 = t2.
Proof. intros E. apply (ty_prefix _ t1 (le_n _) t2 [] []). congruence. Qed.
(** The names themselves. *)
Fixpoint join (sep : str) (l : list str) : str :=
  match l with [] => [] | [x] => x | x :: l' => x ++ sep ++ join sep l' end.
Lemma join_types t ts : ty_show t ++ more_types ts = join (lit ", ") (map ty_show (t :: ts)).
Proof.
  revert t. induction ts as [|u ts IH]; intros t; [apply app_nil_r|]. cbn [map join]. cbn [map join] in IH. rewrite <- IH.
  unfold more_types. cbn [flat_map]. rewrite <- !app_assoc. reflexivity.
Qed.
Theorem C53_type_words :
  map ty_show [TAny; TNull; TBool; TInt; TFrac; TStr; TObj] =
    [lit "Any"; lit "Null"; lit "Bool"; lit "Int"; lit "Frac"; lit "Str"; lit "Obj"] /\
  (forall t, ty_show (TArr t) = lit "Arr(" ++ ty_show t ++ lit ")") /\
  (forall ts, ty_show (TTup ts) = lit "Tup(" ++ join (lit ", ") (map ty_show ts) ++ lit ")").
Proof.
  split; [reflexivity|]. split; [reflexivity|]. intros [|t ts]; [reflexivity|]. cbn [ty_show].
  rewrite fold_types, join_types. reflexivity.
Qed.
Lemma ty_pfx t1 t2 r1 r2 : ty_show t1 ++ r1 = ty_show t2 ++ r2 -> t1 = t2 /\ r1 = r2.
Proof. apply (ty_prefix _ t1 (le_n _)). Qed.

(** ** Numbers and places *)
Definition no_digit (r : str) : Prop := match r with [] => True | c :: _ => is_digit c = false end.
Lemma digits_pfx a : Forall (fun c => is_digit c = true) a -> forall b, Forall (fun c => is_digit c = true) b -> forall r1 r2,
  no_digit r1 -> no_digit r2 -> a ++ r1 = b ++ r2 -> a = b /\ r1 = r2.
Proof.
  induction 1 as [|c a Hc Ha IH]; intros b Hb r1 r2 N1 N2 E.
  - destruct Hb as [|d b Hd Hb]; [auto|]. cbn in E. subst r1. cbn in N1. congruence.
  - destruct Hb as [|d b Hd Hb].
    + cbn in E. subst r2. cbn in N2. congruence.
    + cbn in E. injection E as <- E. apply IH in E; auto. destruct E as [-> ->]. auto.
Qed.
Lemma dec_inj n m : N_to_dec n = N_to_dec m -> n = m.
Proof. intros E. rewrite <- (dec_val_N n), <- (dec_val_N m), E. reflexivity. Qed.
Lemma dec_pfx n m r1 r2 : N_to_dec n ++ r1 = N_to_dec m ++ r2 -> no_digit r1 -> no_digit r2 -> n = m /\ r1 = r2.
Proof.
  intros E N1 N2. apply digits_pfx in E; auto using dec_digits. destruct E as [E ->]. split; auto. apply dec_inj; auto.
Qed.
Lemma digits_sfx a b : Forall (fun c => is_digit c = true) a -> Forall (fun c => is_digit c = true) b -> forall r1 r2 c1 c2,
  is_digit c1 = false -> is_digit c2 = false -> (r1 ++ [c1]) ++ a = (r2 ++ [c2]) ++ b -> a = b /\ r1 = r2 /\ c1 = c2.
Proof.
  intros A B r1 r2 c1 c2 N1 N2 E. apply (f_equal (@rev _)) in E. rewrite !rev_app_distr in E. cbn in E.
  apply digits_pfx in E; auto using Forall_rev. destruct E as [E1 E2]. injection E2 as -> E2.
  apply (f_equal (@rev _)) in E1, E2. rewrite !rev_involutive in E1, E2. auto.
Qed.
Lemma dec_sfx r1 r2 n m u : (forall w, exists w' c, w ++ u = w' ++ [c] /\ is_digit c = false) ->
  r1 ++ u ++ N_to_dec n = r2 ++ u ++ N_to_dec m -> n = m /\ r1 = r2.
Proof.
  intros H E. rewrite !app_assoc in E. destruct (H r1) as (w1 & c1 & E1 & N1), (H r2) as (w2 & c2 & E2 & N2).
  rewrite E1, E2 in E. apply digits_sfx in E; auto using dec_digits. destruct E as (E & -> & ->).
  split; [apply dec_inj; auto|]. rewrite <- E2 in E1. apply app_inv_tail in E1. auto.
Qed.
Lemma sp_end w u : exists w' c, w ++ u ++ lit " " = w' ++ [c] /\ is_digit c = false.
Proof. exists (w ++ u), 32. rewrite <- app_assoc. auto. Qed.
Lemma at_sfx a b l1 c1 l2 c2 : a ++ at_line_col l1 c1 = b ++ at_line_col l2 c2 -> a = b /\ l1 = l2 /\ c1 = c2.
Proof.
  unfold at_line_col. intros E. rewrite !app_assoc in E. rewrite <- !(app_assoc _ (lit ", column ")) in E.
  apply dec_sfx in E; [|intros w; apply (sp_end w (lit ", column"))]. destruct E as [-> E].
  rewrite <- !app_assoc in E. apply dec_sfx in E; [|intros w; apply (sp_end w (lit " at line"))]. destruct E as [-> ->]. auto.
Qed.
Lemma over_sfx a b l1 c1 l2 c2 : a ++ lit " at line " ++ N_to_dec l1 ++ lit ", col " ++ N_to_dec c1 =
  b ++ lit " at line " ++ N_to_dec l2 ++ lit ", col " ++ N_to_dec c2 -> a = b /\ l1 = l2 /\ c1 = c2.
Proof.
  intros E. rewrite !app_assoc in E. rewrite <- !(app_assoc _ (lit ", col ")) in E.
  apply dec_sfx in E; [|intros w; apply (sp_end w (lit ", col"))]. destruct E as [-> E].
  rewrite <- !app_assoc in E. apply dec_sfx in E; [|intros w; apply (sp_end w (lit " at line"))]. destruct E as [-> ->]. auto.
Qed.
Lemma at_pfx l1 c1 l2 c2 r1 r2 : at_line_col l1 c1 ++ r1 = at_line_col l2 c2 ++ r2 -> no_digit r1 -> no_digit r2 ->
  l1 = l2 /\ c1 = c2 /\ r1 = r2.
Proof.
  unfold at_line_col. intros E N1 N2. rewrite <- !app_assoc in E. apply app_inv_head in E. apply dec_pfx in E; [|reflexivity..].
  destruct E as [-> E]. apply app_inv_head in E. apply dec_pfx in E; [|exact N1|exact N2]. destruct E as [-> ->]. auto.
Qed.
(** Numbers in messages: decimal digits, without leading zeros, of that value. *)
Fixpoint positional (w : str) : N :=
  match w with [] => 0 | c :: w' => (c - 48) * 10 ^ N.of_nat (length w') + positional w' end.
Lemma positional_acc w : forall a, fold_left (fun a c => a * 10 + (c - 48)) w a = a * 10 ^ N.of_nat (length w) + positional w.
Proof.
  induction w as [|c w IH]; intros a; [cbn; lia|]. cbn [fold_left positional length]. rewrite IH, Nat2N.inj_succ, N.pow_succ_r'. ring.
Qed.
Lemma lead_zero u : match Decimal.unorm u with Decimal.D0 Decimal.Nil => True | Decimal.D0 _ => False | _ => True end.
Proof. induction u; cbn; auto. Qed.
Theorem C53_decimal n : Forall (fun c => In c (lit "0123456789")) (N_to_dec n) /\ positional (N_to_dec n) = n /\
  (n <> 0 -> head (N_to_dec n) <> Some 48).
Proof.
  split; [eapply Forall_impl; [|apply dec_digits]; intros c; apply PropChars.C51_digit_chars|]. split.
  - rewrite <- (dec_val_N n) at 2. unfold dec_val. rewrite positional_acc. lia.
  - intros Z. unfold N_to_dec. assert (U : Decimal.unorm (N.to_uint n) = N.to_uint n).
    { rewrite <- (DecimalN.Unsigned.to_of (N.to_uint n)). f_equal. apply DecimalN.Unsigned.of_to. }
    pose proof (lead_zero (N.to_uint n)) as L. rewrite U in L.
    destruct (N.to_uint n) eqn:E; try discriminate. destruct u; try contradiction.
    exfalso. apply Z. pose proof (DecimalN.Unsigned.of_to n) as O. rewrite E in O. cbn in O. congruence.
Qed.
Lemma zdec_inj i j : Z_to_dec i = Z_to_dec j -> i = j.
Proof.
  assert (H : forall n w, N_to_dec n <> c_minus :: w).
  { intros n w E. pose proof (dec_digits n) as D. rewrite E in D. apply Forall_inv in D. discriminate. }
  destruct i, j; cbn [Z_to_dec]; intros E; try (exfalso; eapply H; (exact E || symmetry; exact E)); 
    try (injection E as E); apply dec_inj in E; congruence.
Qed.

(** ** Errors of the API *)
(** The errors that are not a text from elsewhere. *)
Definition structured (e : over_error) : Prop :=
  match e with OE_ParseError _ | OE_IoError _ => False | _ => True end.
Theorem C53_api_messages e1 e2 : structured e1 -> structured e2 -> over_error_show e1 = over_error_show e2 -> e1 = e2.
Proof.
  intros S1 S2 E. destruct e1, e2; try contradiction; try discriminate E; cbn [over_error_show] in E; auto.
  all: apply app_inv_head in E.
  - apply dec_pfx in E; [|reflexivity..]. destruct E as [-> _]. reflexivity.
  - apply ty_pfx in E. destruct E as [-> E]. apply app_inv_head, C53_type_names in E. congruence.
  - apply app_inv_head, app_inv_tail in E. congruence.
  - apply app_inv_head, app_inv_tail in E. congruence.
  - apply dec_pfx in E; [|reflexivity..]. destruct E as [-> _]. reflexivity.
  - apply dec_pfx in E; [|reflexivity..]. destruct E as [-> E]. apply app_inv_head, ty_pfx in E. destruct E as [-> E].
    apply app_inv_head, C53_type_names in E. congruence.
  - apply ty_pfx in E. destruct E as [-> E]. apply app_inv_head, C53_type_names in E. congruence.
Qed.

(** ** Errors of a load *)
Definition proper (k : pkind) : Prop :=
  match k with
  | IoErrorKind _ | ParseIntErrorKind _ => False
  | OverErrorKind s => exists e l c, structured e /\ s = over_error_show e ++ lit " at line " ++ N_to_dec l ++ lit ", col " ++ N_to_dec c
  | _ => True
  end.
Section P.
Context `{U : Unicode}.
Lemma faulty_proper fs file root x0 text k : faulty fs file root x0 text k -> proper k.
Proof.
  assert (O : forall op v w pre, proper (op_fault op v w pre)).
  { intros. unfold op_fault. destruct op; try exact I; destruct (_ && _); exact I. }
  assert (D : forall e pre, structured e -> proper (data_fault e pre)).
  { intros. unfold data_fault. eexists _, _, _. eauto. }
  intros (pl & x & P & R & _ & _ & _ & F). destruct pl; cbn [fault] in F; try contradiction.
  - destruct F; try exact I; apply D; exact I.
  - destruct F as [? ? F| |]; try exact I. destruct F; exact I.
  - destruct F as [? ? F|]; try exact I. destruct F; exact I.
  - destruct F; exact I.
  - destruct F; exact I.
  - destruct F; exact I.
  - destruct F; try exact I. apply D. unfold out_of_bounds. destruct v; exact I.
  - destruct F as [| | | |R k _ F]; try exact I; [apply O|].
    revert F. clear R. intros F. clear -F O.
    assert (G : forall terms acc x k, sum_fault acc terms cur pre x = Some k -> proper k).
    { clear -O. induction terms as [|[[v p] op'] terms IH]; intros [[s op]|] x k; cbn; try discriminate.
      - destruct (ev_op _ _ _ _); [discriminate|]. intros [= <-]. apply O.
      - destruct (ev_op _ _ _ _) as [[]|]; [apply IH|]. intros [= <-]. apply O.
      - apply IH. }
    eapply G; exact F.
Qed.

(** What Rust's [Debug] of a char must give here: another text for another character. *)
Definition debug_injective : Prop := forall c d, u_debug c = u_debug d -> c = d.

Lemma kind_inj k1 k2 : debug_injective -> proper k1 -> proper k2 -> pkind_show k1 = pkind_show k2 -> k1 = k2.
Proof.
  intros DI P1 P2 E. destruct k1, k2; try contradiction; try discriminate E; cbn [pkind_show] in E.
  all: try (destruct P2 as (e & l & k & S & ->); destruct e; try contradiction; discriminate E).
  all: try (destruct P1 as (e & l & k & S & ->); destruct e; try contradiction; discriminate E).
  all: try (subst; reflexivity).
  all: try (apply app_inv_head in E).
  (* ... "name" at line l, column c *)
  all: try (apply app_inv_head in E; rewrite (app_assoc _ dq), (app_assoc _ dq (at_line_col line0 col0)) in E;
            apply at_sfx in E; destruct E as (E & -> & ->); apply app_inv_tail in E; congruence).
  (* ... "name" at line l, column c could not be found *)
  all: try (apply app_inv_head in E; rewrite !(app_assoc _ _ (lit " could not be found")) in E; apply app_inv_tail in E;
            rewrite ?app_assoc in E; apply at_sfx in E; destruct E as (E & -> & ->);  apply app_inv_tail in E; congruence).
  (* ... type at line l, column c *)
  all: try (apply ty_pfx in E; destruct E as [-> E]; apply at_pfx in E; [|reflexivity..]; destruct E as (-> & -> & E);
            try (apply app_inv_head in E; apply C53_type_names in E); congruence).
  (* ... 'c' for field / for value / following backslash *)
  all: try (rewrite !(app_assoc (u_debug _)) in E; apply at_sfx in E; destruct E as (E & -> & ->);
            first [apply app_inv_tail in E; apply DI in E; congruence
                  |exfalso; apply (f_equal (@rev _)) in E; rewrite !rev_app_distr in E; discriminate E]).
  (* ... at line l, column c *)
  all: try (apply (at_sfx [] []) in E; destruct E as (_ & -> & ->); reflexivity).
  - assert (op = op0 /\ lit " on types " ++ ty_show t1 ++ lit " and " ++ ty_show t2 ++ at_line_col line col =
      lit " on types " ++ ty_show t0 ++ lit " and " ++ ty_show t3 ++ at_line_col line0 col0) as [-> E'].
    { destruct op, op0; try discriminate E; split; auto; apply app_inv_head in E; exact E. }
    apply app_inv_head, ty_pfx in E'. destruct E' as [-> E']. apply app_inv_head, ty_pfx in E'. destruct E' as [-> E'].
    apply (at_sfx [] []) in E'. destruct E' as (_ & -> & ->). reflexivity.
  - exfalso. destruct op, op0; discriminate E.
  - apply at_sfx in E. destruct E as (E & -> & ->). apply zdec_inj in E. congruence.
  - assert (found = found0) as -> by (injection E; auto). do 2 apply app_inv_head in E. apply at_pfx in E; [|reflexivity..]. destruct E as (-> & -> & E).
    apply app_inv_head in E. destruct expected, expected0; try discriminate E; [injection E as ->|]; reflexivity.
  - rewrite !(app_assoc _ _ (lit ". If you meant to write a backslash, use '\\'")) in E. apply app_inv_tail in E.
    rewrite !app_assoc in E. apply at_sfx in E. destruct E as (E & -> & ->). apply app_inv_tail, DI in E. congruence.
  - apply app_inv_head, ty_pfx in E. destruct E as [-> E]. apply app_inv_head, at_pfx in E; [|reflexivity..].
    destruct E as (-> & -> & _). reflexivity.
  - do 2 apply app_inv_head in E. apply (at_sfx [] []) in E. destruct E as (_ & -> & ->). reflexivity.
  - exfalso. destruct op, op0; discriminate E.
  - assert (op = op0 /\ lit " on type " ++ ty_show t ++ at_line_col line col = lit " on type " ++ ty_show t0 ++ at_line_col line0 col0) as [-> E'].
    { destruct op, op0; try discriminate E; split; auto; apply app_inv_head in E; exact E. }
    apply app_inv_head, ty_pfx in E'. destruct E' as [-> E']. apply (at_sfx [] []) in E'. destruct E' as (_ & -> & ->). reflexivity.
  - apply dec_inj in E. congruence.
Qed.

(** Two texts that are refused for a fault of their own and with the same message have the same fault: the same kind, at
    the same line and column, with the same names, types and characters. *)
Theorem C53_same_message_same_fault fs1 g1 t1 k1 fs2 g2 t2 k2 : debug_injective ->
  faulty fs1 None IObj ([], init_sh g1) t1 k1 -> faulty fs2 None IObj ([], init_sh g2) t2 k2 ->
  from_str fs1 g1 t1 = from_str fs2 g2 t2 -> k1 = k2.
Proof.
  intros DI F1 F2 E. rewrite (C51_error_names_the_fault _ _ _ _ F1), (C51_error_names_the_fault _ _ _ _ F2) in E.
  injection E as E. eapply kind_inj; eauto using faulty_proper.
Qed.
(** The same for files with the same path. *)
Theorem C53_file fs1 g1 t1 k1 fs2 g2 t2 k2 path : debug_injective ->
  readable fs1 path t1 -> readable fs2 path t2 ->
  faulty fs1 (Some path) IObj ([], file_sh fs1 g1 path) t1 k1 -> faulty fs2 (Some path) IObj ([], file_sh fs2 g2 path) t2 k2 ->
  from_file fs1 g1 path = from_file fs2 g2 path -> k1 = k2.
Proof.
  intros DI R1 R2 F1 F2 E. rewrite (C51_file _ _ _ _ _ R1 F1), (C51_file _ _ _ _ _ R2 F2) in E.
  injection E as E. apply app_inv_head in E. injection E as E. eapply kind_inj; eauto using faulty_proper.
Qed.
(** Without files, the message of a refused text determines its fault. *)
Theorem C53_message_determines_fault fs g1 g2 t1 t2 e : debug_injective -> (forall p, canon fs p = None) ->
  from_str fs g1 t1 = Some (OErr e) -> from_str fs g2 t2 = Some (OErr e) ->
  exists k, faulty fs None IObj ([], init_sh g1) t1 k /\ faulty fs None IObj ([], init_sh g2) t2 k.
Proof.
  intros DI N E1 E2. pose proof E1 as F1. pose proof E2 as F2. apply C52_no_files in F1, F2; auto.
  destruct F1 as (k1 & F1 & _), F2 as (k2 & F2 & _). exists k1. split; auto.
  replace k1 with k2; auto. symmetry. eapply C53_same_message_same_fault; eauto. congruence.
Qed.

(** ** The texts *)
(** The words of every message, with its parts marked. *)
Inductive part := T (s : String.string) | S_ (s : str) | N_ (n : N) | Z_ (z : Z) | Ty (t : ty) | D (c : char) | C (c : char) | Q.
Arguments T s%string_scope.
Definition part_text (p : part) : str :=
  match p with
  | T s => lit s | S_ s => s | N_ n => N_to_dec n | Z_ z => Z_to_dec z | Ty t => ty_show t | D c => u_debug c | C c => [c] | Q => [34]
  end.
Definition message (ps : list part) : str := concat (map part_text ps).
Definition at_ (l c : N) : list part := [T " at line "; N_ l; T ", column "; N_ c].
Definition op_char (op : binop) : char := match op with BPlus => 43 | BMinus => 45 | BMult => 42 | BDiv => 47 | BMod => 37 end.
Definition sign_char (op : unop) : char := match op with UPlus => 43 | UMinus => 45 end.
Definition words (k : pkind) : list part :=
  match k with
  | BinaryOperatorError t1 t2 op l c => [T "Could not apply operator '"; C (op_char op); T "' on types "; Ty t1; T " and "; Ty t2] ++ at_ l c
  | UnaryOperatorError t op l c => [T "Could not apply operator '"; C (sign_char op); T "' on type "; Ty t] ++ at_ l c
  | CyclicInclude f l c => [T "Tried to cyclically include file "; Q; S_ f; Q] ++ at_ l c
  | DuplicateField f l c => [T "Duplicate field "; Q; S_ f; Q] ++ at_ l c
  | DuplicateGlobal f l c => [T "Duplicate global "; Q; S_ f; Q] ++ at_ l c
  | ExpectedType t1 t2 l c => [T "Expected "; Ty t1] ++ at_ l c ++ [T "; found "; Ty t2]
  | GlobalNotFound f l c => [T "Global "; Q; S_ f; Q] ++ at_ l c ++ [T " could not be found"]
  | VariableNotFound f l c => [T "Variable "; Q; S_ f; Q] ++ at_ l c ++ [T " could not be found"]
  | InvalidClosingBracket None b l c => [T "Invalid closing bracket '"; C b; T "'"] ++ at_ l c ++ [T "; expected none"]
  | InvalidClosingBracket (Some a) b l c => [T "Invalid closing bracket '"; C b; T "'"] ++ at_ l c ++ [T "; expected '"; C a; T "'"]
  | InvalidDot t l c => [T "Invalid use of dot notation on value of type "; Ty t] ++ at_ l c ++ [T "; value must be an Obj, Arr, or Tup."]
  | InvalidEscapeChar a l c => [T "Invalid escape character "; D a; T " following backslash"] ++ at_ l c ++
      [T ". If you meant to write a backslash, use '\\'"]
  | InvalidFieldChar a l c => [T "Invalid character "; D a; T " for field"] ++ at_ l c
  | InvalidValueChar a l c => [T "Invalid character "; D a; T " for value"] ++ at_ l c
  | InvalidFieldName f l c => [T "Invalid field name "; Q; S_ f; Q] ++ at_ l c
  | InvalidIncludePath f l c => [T "Invalid include path "; Q; S_ f; Q] ++ at_ l c
  | InvalidIncludeToken t l c => [T "Invalid value of type "; Q; Ty t; Q] ++ at_ l c ++
      [T "; must be either a Str value or one of the tokens "; Q; T "Obj"; Q; T ", "; Q; T "Arr"; Q; T ", "; Q; T "Tup"; Q; T ", or "; Q; T "Str"; Q]
  | InvalidIndex i l c => [T "Invalid index "; Z_ i] ++ at_ l c
  | InvalidNumeric l c => [T "Invalid numeric value"] ++ at_ l c
  | InvalidValue f l c => [T "Invalid value "; Q; S_ f; Q] ++ at_ l c
  | MaxDepth l c => [T "Exceeded maximum recursion depth (64)"] ++ at_ l c
  | UnexpectedEnd l => [T "Unexpected end at line "; N_ l]
  | IoErrorKind s | OverErrorKind s | ParseIntErrorKind s => [S_ s]
  end.
Theorem C53_texts k : pkind_show k = message (words k).
Proof.
  destruct k; try destruct op; try destruct expected;
    cbn [pkind_show words message map concat part_text app at_ op_char sign_char]; unfold at_line_col, binop_show, unop_show, dq;
    rewrite ?app_nil_r, <- ?app_assoc; reflexivity.
Qed.
End P.

Arguments T s%string_scope.
Definition api_words (e : over_error) : list part :=
  match e with
  | OE_ArrOutOfBounds i => [T "Arr index "; N_ i; T " out of bounds"]
  | OE_ArrTypeMismatch t1 t2 => [T "Arr inner types do not match: expected "; Ty t1; T ", found "; Ty t2]
  | OE_FieldNotFound f => [T "Field not found: "; Q; S_ f; Q]
  | OE_InvalidFieldName f => [T "Invalid field name: "; Q; S_ f; Q]
  | OE_NoParentFound => [T "No parent found for this obj"]
  | OE_TupOutOfBounds i => [T "Tup index "; N_ i; T " out of bounds"]
  | OE_TupTypeMismatch t1 t2 i => [T "Tup inner types do not match at index "; N_ i; T ": expected "; Ty t1; T ", found "; Ty t2]
  | OE_TypeMismatch t1 t2 => [T "Type mismatch: expected "; Ty t1; T ", found "; Ty t2]
  | OE_ParseError s | OE_IoError s => [S_ s]
  end.
Theorem C53_api_texts `{Unicode} e : over_error_show e = message (api_words e).
Proof.
  destruct e; cbn [over_error_show api_words message map concat part_text app]; unfold dq; rewrite ?app_nil_r, <- ?app_assoc; reflexivity.
Qed.

(** ** Concrete cases *)
Section Ex.
#[local] Instance ascii : Unicode := {| u_alpha := fun _ => false; u_debug := fun c => [c] |}.
Example debug_ex : debug_injective.
Proof. intros c d [= ->]. reflexivity. Qed.
Definition bare_fs : fsys := mkfs (fun _ => None) [] (fun _ => lit "no such file").
(** Two different texts with the same fault, and hence the same message; another fault gives another message. *)
Example msg_ex :
  from_str bare_fs g0 (lit "a: [1 {}]") = from_str bare_fs g0 (lit "b: [2 {}]") /\
  from_str bare_fs g0 (lit "a: [1 {}]") <> from_str bare_fs g0 (lit "a: [{} 1]") /\
  exists k, faulty bare_fs None IObj ([], init_sh g0) (lit "a: [1 {}]") k /\ faulty bare_fs None IObj ([], init_sh g0) (lit "b: [2 {}]") k.
Proof.
  split; [vm_compute; reflexivity|]. split; [vm_compute; discriminate|].
  eapply C53_message_determines_fault; [exact debug_ex|intros p; unfold canon, fs_entry; destruct (path_parent p); reflexivity|vm_compute; reflexivity|vm_compute; reflexivity].
Qed.
Example type_name_ex : ty_show (TTup [TArr TAny; TTup []; TObj]) = lit "Tup(Arr(Any), Tup(), Obj)".
Proof. reflexivity. Qed.
End Ex.

Print Assumptions C53_type_names.
Print Assumptions C53_type_words.
Print Assumptions C53_decimal.
Print Assumptions C53_api_messages.
Print Assumptions C53_same_message_same_fault.
Print Assumptions C53_file.
Print Assumptions C53_message_determines_fault.
Print Assumptions C53_texts.
Print Assumptions C53_api_texts.
