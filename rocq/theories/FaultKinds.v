(** * FaultKinds: at each place, each fault of Spot.v is what the parser reports. *)
From Verif Require Export FaultSound.
From Coq Require String.
Import String.StringSyntax.
Open Scope N_scope.

Section Kinds.
Context `{U : Unicode}.
Variable fs : fsys.
Variable file : option str.
Notation li := (load_file fs (inc_fuel fs)).
Notation inc := (include_meaning fs file).
Notation EA := (ev_atom inc limit64).
Notation EE := (ev_expr inc limit64).
Notation good := (good file).
Notation meets := (meets fs file).
Notation dsp n := (AgreeMain.disp fs li n).
Notation er k := (mkperr file k).

(** *** Ends *)
Lemma mb_line {A} k P R x s : good P R x s -> k = UnexpectedEnd (line_of P) ->
  mb (er k) (let* l := getline in @fail A (UnexpectedEnd l)) s.
Proof. intros G ->. eapply mb_getline; [exact G|]. eapply mb_failed; exact G. Qed.
Lemma mb_pos {A} (f : N -> N -> pkind) k P R x s : good P R x s -> k = f (line_of P) (col_of P) ->
  mb (er k) (let* '(l, c) := getpos in @fail A (f l c)) s.
Proof. intros G ->. eapply mb_getpos; [exact G|]. eapply mb_failed; exact G. Qed.
Lemma char_pos P c : line_of (P ++ [c]) = char_line P c /\ col_of (P ++ [c]) - 1 = char_col P c.
Proof.
  pose proof (pos_snoc P c) as H. unfold adv in H. unfold char_line, char_col. destruct (c =? 10); injection H as <- <-; split; auto; lia.
Qed.
Lemma mb_back {A} (f : N -> N -> pkind) k P c R x s : good (P ++ [c]) R x s -> k = f (char_line P c) (char_col P c) ->
  mb (er k) (let* l := getline in let* q := col_minus_1 in @fail A (f l q)) s.
Proof.
  intros G ->. destruct (char_pos P c) as [E1 E2]. eapply mb_getline; [exact G|]. unfold mb, bind, col_minus_1.
  destruct G as (_ & _ & F & _ & _ & C). rewrite C. destruct (N.eqb_spec (col_of (P ++ [c])) 0) as [Z|_].
  - pose proof (col_pos (P ++ [c])). lia.
  - unfold fail. cbn iota beta. rewrite F, E1, E2. reflexivity.
Qed.
Lemma end_solid c : is_end_delimiter c = true -> is_whitespace c = false.
Proof.
  intros E. unfold is_end_delimiter in E. rewrite !orb_true_iff, !N.eqb_eq in E. destruct E as [[[->| ->]| ->]| ->]; reflexivity.
Qed.
Lemma solid_nl c : is_whitespace c = false -> (c =? c_nl) = false.
Proof. intros H. apply N.eqb_neq. intros ->. discriminate. Qed.

(** *** Items *)
Lemma mb_pairs e n ps par d close s : (forall m, mb e (parse_field_value_pair fs li (S m) ps par d close) s) ->
  mb e (pairs_loop fs li n ps par d close) s.
Proof.
  intros H. destruct n as [|n]; [exact I|]. rewrite pairs_loop_S. apply mb_bind. destruct n as [|n]; [exact I|]. apply H.
Qed.
Lemma mb_enter e n ps par d close P c r x s : is_whitespace c = false -> good P (c :: r) x s ->
  (forall m s', good P (c :: r) x s' -> mb e (parse_field_value_pair fs li (S m) ps par d close) s') ->
  mb e (items_code fs n ps par d close) s.
Proof.
  intros Hc G H. unfold items_code. eapply mb_find0; [exact Hc|exact G|]. intros s1 G1. cbn [negb]. apply mb_pairs. intros m. apply H. exact G1.
Qed.
Lemma mb_enter_name e n ps par d close P f R x s : item_name f -> good P (f ++ R) x s ->
  (forall m s', good P (f ++ R) x s' -> mb e (parse_field_value_pair fs li (S m) ps par d close) s') ->
  mb e (items_code fs n ps par d close) s.
Proof.
  intros Hf G H. destruct (head_not_end f Hf) as (c & r & Ef & Hc1 & _ & _). rewrite Ef in *. cbn [app] in *.
  eapply mb_enter; eauto.
Qed.
Lemma valid_first c : is_valid_field_char c true = true <-> starts_name c.
Proof.
  unfold starts_name, letter, is_valid_field_char. cbn [negb].
  destruct (ch_is_alphabetic c) eqn:A; [intuition|]. destruct (is_digit c) eqn:D.
  { apply digit_range in D. intuition; subst; try discriminate; lia. }
  destruct (N.eqb_spec c 95) as [->|]; [intuition|]. destruct (N.eqb_spec c 94) as [->|]; [intuition|]. intuition; congruence.
Qed.
Lemma valid_rest c : is_valid_field_char c false = true <-> letter_or_digit c.
Proof.
  split; [|apply lod_field]. unfold letter_or_digit, letter, is_valid_field_char. cbn [negb].
  destruct (ch_is_alphabetic c); [intuition|]. destruct (is_digit c); [intuition|].
  destruct (N.eqb_spec c 95) as [->|]; [intuition|]. destruct (N.eqb_spec c 94) as [->|]; intuition; congruence.
Qed.
Lemma starts_not_at c : starts_name c -> c <> 64.
Proof. intros [H| ->]; [|discriminate]. apply letter_lod, lod_range in H. lia. Qed.
Lemma scan_field_scanned acc r l k y q : scan_field r l k acc true = (y, q) -> exists con, scanned r l k con q.
Proof. intros E. apply scan_field_spec in E as (con & E & _). eauto. Qed.
(** what [parse_field] does after the scan *)
Definition field_rest (res : field_scan) (glob : bool) (line col : N) : M (str * field_type) :=
  match res with
  | FS_bad c =>
      let* l := getline in
      let* k := col_minus_1 in
      fail (InvalidFieldChar c l k)
  | FS_ok field =>
      if is_reserved field then fail (InvalidFieldName field line col)
      else if str_eqb field (lit "^") then ret (field, FParent)
      else match field with
           | 94 :: _ => fail (InvalidFieldName field line col)
           | _ => ret (field, if glob then FGlobal else FRegular)
           end
  end.
Lemma good_ffront glob m R u R' res P x s l0 k0 : (glob = false -> hd_error (m ++ R) <> Some 64) ->
  with_at glob m ++ R <> [] -> R = u ++ R' ->
  (forall l k, exists l' k', scan_field (m ++ R) l k (with_at glob []) true = (res, (R', l', k'))) ->
  good P (with_at glob m ++ R) x s ->
  exists s', good (P ++ with_at glob m ++ u) R' x s' /\ parse_field l0 k0 s = field_rest res glob l0 k0 s'.
Proof.
  intros H64 Nn -> Sc G. unfold parse_field, peek_unwrap, bind, peek.
  destruct glob; cbn [with_at] in *.
  - cbn [app] in G. rewrite app_assoc in G. destruct (good_next _ _ _ _ _ _ G) as [E1 G1].
    destruct (good_scan file (fun r l k => scan_field r l k [64] true) _ _ R' x _ res (scan_field_scanned [64]) G1) as (s' & E & G').
    { intros l k. rewrite <- app_assoc. apply Sc. }
    exists s'. split; [asc G'; ascg; exact G'|].
    pose proof G as (R & _). rewrite R. cbn [unwrap ret]. unfold ret at 1. change (64 =? 64) with true. cbv iota.
    unfold next_unwrap, bind. rewrite E1. cbn [unwrap ret]. unfold ret at 1 2. rewrite E. reflexivity.
  - specialize (H64 eq_refl). rewrite app_assoc in G.
    destruct (good_scan file (fun r l k => scan_field r l k [] true) _ _ R' x _ res (scan_field_scanned []) G) as (s' & E & G').
    { intros l k. rewrite <- app_assoc. apply Sc. }
    exists s'. split; [exact G'|]. pose proof G as (R & _). rewrite <- app_assoc in R. destruct (m ++ u ++ R') as [|c r] eqn:Em; [congruence|].
    rewrite R. cbn [unwrap ret]. unfold ret at 1. replace (c =? 64) with false by (symmetry; apply N.eqb_neq; cbn in H64; congruence).
    unfold ret at 1. rewrite E. reflexivity.
Qed.
Lemma item_split f : item_name f -> exists glob c r, f = with_at glob (c :: r) /\ starts_name c /\ Forall letter_or_digit r.
Proof. intros (c & r & [->| ->] & Hc & Hr); [exists false|exists true]; exists c, r; auto. Qed.
Lemma bad_field P f c r x s l0 k0 : bad_in_name f c -> good P (f ++ c :: r) x s ->
  exists s', good (P ++ f ++ [c]) r x s' /\ parse_field l0 k0 s = field_rest (FS_bad c) (match f with 64 :: _ => true | _ => false end) l0 k0 s'.
Proof.
  intros B G.
  assert (Bad : ~ starts_name c -> forall l k acc, exists l' k', scan_field (c :: r) l k acc true = (FS_bad c, (r, l', k'))).
  { intros H l k acc. cbn [scan_field]. destruct (adv c l k) as [l1 k1]. rewrite andb_false_r.
    destruct (is_valid_field_char c true) eqn:V; [apply valid_first in V; contradiction|]. eauto. }
  destruct B as [(-> & H1 & H2 & _)|[(-> & H1)|(Hf & H1 & H2)]].
  - apply (good_ffront false [] (c :: r) [c] r (FS_bad c) P x s l0 k0); auto; [|discriminate]. intros _. cbn. congruence.
  - apply (good_ffront true [] (c :: r) [c] r (FS_bad c) P x s l0 k0); auto; discriminate.
  - destruct (item_split f Hf) as (glob & c0 & r0 & -> & Hc0 & Hr0).
    replace (match with_at glob (c0 :: r0) with 64 :: _ => true | _ => false end) with glob.
    2:{ destruct glob; [reflexivity|]. cbn [with_at]. pose proof (starts_not_at _ Hc0) as N0.
        destruct (N.eq_dec c0 64); [contradiction|]. symmetry. destruct c0 as [|p]; [reflexivity|].
        do 7 (destruct p as [p|p|]; try reflexivity). contradiction. }
    apply (good_ffront glob (c0 :: r0) (c :: r) [c] r (FS_bad c) P x s l0 k0); auto.
    + intros _. cbn. intros E. injection E as E. eapply starts_not_at; eauto.
    + destruct glob; discriminate.
    + intros l k. destruct (scan_field_first c0 r0 (c :: r) Hc0 Hr0 l k (with_at glob [])) as (l1 & k1 & ->).
      cbn [scan_field]. destruct (adv c l1 k1) as [l2 k2]. replace (c =? 58) with false by (symmetry; apply N.eqb_neq; auto). cbn [andb].
      destruct (is_valid_field_char c false) eqn:V; [apply valid_rest in V; contradiction|]. eauto.
Qed.
(** the check of a name *)
Definition name_err (f : str) (ps : list pair_t) (par : option obj) (x : est) (P : str) : option pkind :=
  match kind_of_item f with
  | KIllegal => Some (InvalidFieldName f (line_of P) (col_of P))
  | KGlobal => match assoc f (fst x) with Some _ => Some (DuplicateGlobal f (line_of P) (col_of P)) | None => None end
  | KParent => match par with Some _ => Some (DuplicateField f (line_of P) (col_of P)) | None => None end
  | KField => if mem_str f (map fst ps) then Some (DuplicateField f (line_of P) (col_of P)) else None
  end.
Lemma kind_parent f : kind_of_item f = KParent -> f = [94].
Proof.
  intros H. destruct f as [|c f]; [discriminate H|]. destruct (N.eq_dec c 64) as [->|N1]; [discriminate H|].
  destruct (N.eq_dec c 94) as [->|N2]; [destruct f; [reflexivity|discriminate H]|].
  rewrite kind_letter in H by auto. destruct (mem_str _ _); discriminate.
Qed.
Lemma mb_item_err P f sep rest x s n ps par d close k : item_name f -> sep_ok sep rest ->
  name_err f ps par x P = Some k -> good P (f ++ sep ++ rest) x s ->
  mb (er k) (parse_field_value_pair fs li (S n) ps par d close) s.
Proof.
  intros Hf Hs Hm G. rewrite parse_field_value_pair_S. destruct (head_not_end f Hf) as (c & r & Ef & _ & H2 & H3).
  assert (G' := G). rewrite Ef in G'. cbn [app] in G'. eapply mb_peek_unwrap; [exact G'|]. rewrite H2, H3. cbn [andb].
  eapply mb_getpos; [exact G|]. pose proof (good_field file P f sep rest x s Hf Hs G) as PF.
  unfold name_err in Hm. destruct (kind_of_item f) eqn:Kd.
  - destruct PF as (s1 & E & G1). eapply mb_ok; [exact E|]. cbv iota. apply mb_bind. eapply mb_ok; [reflexivity|].
    pose proof G1 as (_ & X & _). rewrite <- X in Hm. cbn [fst st] in Hm. destruct (assoc f (s_globals s1)); [|discriminate].
    injection Hm as <-. eapply mb_failed; exact G1.
  - destruct PF as (s1 & E & G1). eapply mb_ok; [exact E|]. cbv iota. apply mb_bind.
    destruct par; [|discriminate]. injection Hm as <-. apply kind_parent in Kd as ->. eapply mb_failed; exact G1.
  - destruct PF as (s1 & E & G1). eapply mb_ok; [exact E|]. cbv iota. apply mb_bind.
    rewrite <- (existsb_map f ps). fold (mem_str f (map fst ps)). destruct (mem_str f (map fst ps)); [|discriminate].
    injection Hm as <-. eapply mb_failed; exact G1.
  - destruct PF as (s1 & E). injection Hm as <-. apply mb_bind. unfold mb. rewrite E. reflexivity.
Qed.
Lemma named_sep R f : named R f -> exists sep rest, sep_ok sep rest /\ R = f ++ sep ++ rest /\ item_name f.
Proof.
  intros (Hf & [->|(r & ->)]); [exists [], []|exists [58], r]; (split; [|split; [|exact Hf]]).
  - left; auto.
  - rewrite !app_nil_r. reflexivity.
  - right; auto.
  - reflexivity.
Qed.
Lemma mb_name_err n ps par d close P f R x s k : named R f -> name_err f ps par x P = Some k -> good P R x s ->
  mb (er k) (items_code fs n ps par d close) s.
Proof.
  intros Hn E G. destruct (named_sep R f Hn) as (sep & rest & Hs & -> & Hf).
  eapply mb_enter_name; [exact Hf|exact G|]. intros m s1 G1. eapply mb_item_err; eauto.
Qed.
Lemma mb_pair_end_blank P u x s (close : option char) (ps : list pair_t) (par : option obj) k :
  close <> None -> blank u -> good P u x s -> k = UnexpectedEnd (line_of (P ++ u)) ->
  mb (er k) (pair_find close ps par) s.
Proof.
  intros C B G ->. unfold pair_find. eapply mb_find_end; [exact B|exact G|]. intros s1 G1. cbn [negb].
  destruct close; [|congruence]. eapply mb_line; [exact G1|reflexivity].
Qed.
Theorem items_sound fields parent d close x P R k : items_fault fs file fields parent d close x P R k ->
  meets (InItems fields parent d close) (er k) x P R.
Proof.
  intros H Kf n s G. destruct H as [R C B|f w e t u r C Hf W He B Ev|c r E C|f c r B| |f R Nm Kd|f R v Nm Kd A|f R o Nm Kd A|f R Nm Kd A|
    f Hf Md|f u Hf Md B|f w e t u v x' Hf Kd Pn W He F E Nt].
  - unfold items_code. eapply mb_find_end; [exact B|exact G|]. intros s1 G1. cbn [negb].
    destruct close; [|congruence]. eapply mb_line; [exact G1|reflexivity].
  - destruct r as [[fields' parent'] x']. destruct (ev_item_inv _ _ _ _ _ _ _ _ _ _ _ Ev) as (Md & v & x1 & E & D).
    destruct (r_expr_head _ _ He) as (c3 & r3 & Et & Hc3 & _).
    eapply mb_enter_name; [exact Hf|exact G|]. intros m s1 G1. assert (G1' := G1). rewrite Et in G1'. cbn [app] in G1'.
    destruct (item_value_eq fs file P f w c3 (r3 ++ u) x s1 m fields parent d close Hf Md W Hc3 G1') as (s2 & G2 & E2).
    eapply mb_at; [exact E2|]. set (P' := P ++ f ++ 58 :: w) in *.
    change (c3 :: r3 ++ u) with ((c3 :: r3) ++ u) in G2. rewrite <- Et in G2.
    eapply mb_expr; [exact G2|exact He|apply blank_folb; exact B|apply Kf|exact E|]. intros s3 V G3.
    destruct (pair_back_eq _ _ _ _ _ f v fields parent close (line_of P') (col_of P') _ _ _ G3 V Kf Hf D) as (s4 & G4 & Kf' & E4).
    eapply mb_at; [exact E4|]. eapply mb_pair_end_blank; [exact C|exact B|exact G4|]. unfold P'. ascg. reflexivity.
  - eapply mb_enter; [apply end_solid; exact E|exact G|]. intros m s1 G1. rewrite parse_field_value_pair_S.
    eapply mb_peek_unwrap; [exact G1|].
    replace ((c =? 125) && match close with Some _ => true | None => false end) with false.
    2:{ symmetry. destruct C as [->|C]; [apply andb_false_r|]. replace (c =? 125) with false; [reflexivity|]. symmetry. apply N.eqb_neq. exact C. }
    rewrite E. eapply (mb_pos (fun l q => InvalidClosingBracket close c l q)); [exact G1|reflexivity].
  - assert (exists c0 r0, f ++ c :: r = c0 :: r0 /\ is_whitespace c0 = false /\ is_end_delimiter c0 = false) as (c0 & r0 & E0 & Hw & Hd).
    { destruct B as [(-> & _ & _ & ? & ?)|[(-> & _)|(Hf & _)]]; [eexists _, _; split; [reflexivity|auto]|eexists _, _; split; [reflexivity|split; reflexivity]|].
      destruct (head_not_end f Hf) as (c1 & r1 & -> & ? & ? & _). eexists _, _. split; [reflexivity|auto]. }
    assert (G' := G). rewrite E0 in G'. eapply mb_enter; [exact Hw|exact G'|]. intros m s1 G1. rewrite parse_field_value_pair_S.
    eapply mb_peek_unwrap; [exact G1|].
    replace (c0 =? 125) with false by (symmetry; apply N.eqb_neq; intros ->; discriminate). cbn [andb]. rewrite Hd.
    eapply mb_getpos; [exact G1|]. rewrite <- E0 in G1.
    destruct (bad_field P f c r x s1 (line_of P) (col_of P) B G1) as (s2 & G2 & E2). apply mb_bind. eapply mb_at; [exact E2|].
    rewrite app_assoc in G2. eapply (mb_back (fun l q => InvalidFieldChar c l q)); [exact G2|reflexivity].
  - eapply (mb_enter _ _ _ _ _ _ _ 64 []); [reflexivity|exact G|]. intros m s1 G1. rewrite parse_field_value_pair_S.
    eapply mb_peek_unwrap; [exact G1|]. cbn [N.eqb Pos.eqb andb is_end_delimiter orb].
    eapply mb_getpos; [exact G1|]. apply mb_bind.
    destruct (good_ffront true [] [] [] [] (FS_ok [64]) P x s1 (line_of P) (col_of P)) as (s2 & G2 & E2); auto; try discriminate.
    { intros l k. cbn. eauto. }
    eapply mb_at; [exact E2|]. cbn [field_rest]. change (is_reserved [64]) with true. cbv iota. eapply mb_failed; exact G2.
  - eapply mb_name_err; [exact Nm| |exact G]. unfold name_err. rewrite Kd. reflexivity.
  - eapply mb_name_err; [exact Nm| |exact G]. unfold name_err. rewrite Kd, A. reflexivity.
  - eapply mb_name_err; [exact Nm| |exact G]. unfold name_err. rewrite Kd, A. reflexivity.
  - eapply mb_name_err; [exact Nm| |exact G]. unfold name_err. apply mem_str_iff in A. rewrite Kd, A. reflexivity.
  - assert (G0 : good P (f ++ [] ++ []) x s) by (rewrite !app_nil_r; exact G).
    eapply mb_enter_name; [exact Hf|exact G0|]. intros m s1 G1.
    destruct (item_name_eq fs file P f [] [] x s1 m fields parent d close Hf (or_introl (conj eq_refl eq_refl)) Md G1) as (s2 & G2 & E2).
    eapply mb_at; [exact E2|]. unfold item_rest. eapply mb_find_end; [|exact G2|].
    { exists [], []. split; [reflexivity|]. split; [apply ws_nil|left; reflexivity]. }
    intros s3 G3. cbn [negb]. eapply mb_line; [exact G3|]. rewrite !app_nil_r. reflexivity.
  - assert (G0 : good P (f ++ [58] ++ u) x s) by exact G.
    eapply mb_enter_name; [exact Hf|exact G0|]. intros m s1 G1.
    destruct (item_name_eq fs file P f [58] u x s1 m fields parent d close Hf (or_intror eq_refl) Md G1) as (s2 & G2 & E2).
    eapply mb_at; [exact E2|]. unfold item_rest. eapply mb_find_end; [exact B|exact G2|].
    intros s3 G3. cbn [negb]. eapply mb_line; [exact G3|]. ascg. reflexivity.
  - destruct (r_expr_head _ _ He) as (c3 & r3 & Et & Hc3 & _).
    eapply mb_enter_name; [exact Hf|exact G|]. intros m s1 G1. assert (G1' := G1). rewrite Et in G1'. cbn [app] in G1'.
    assert (Md : may_define f fields parent (fst x)) by (unfold may_define; rewrite Kd; exact Pn).
    destruct (item_value_eq fs file P f w c3 (r3 ++ u) x s1 m fields parent d close Hf Md W Hc3 G1') as (s2 & G2 & E2).
    eapply mb_at; [exact E2|]. set (P' := P ++ f ++ 58 :: w) in *.
    change (c3 :: r3 ++ u) with ((c3 :: r3) ++ u) in G2. rewrite <- Et in G2.
    eapply mb_expr; [exact G2|exact He|apply complete_folb; exact F|apply Kf|exact E|]. intros s3 V G3.
    unfold pair_back. rewrite Kd. apply mb_bind. destruct v; try (exfalso; apply Nt; reflexivity);
      (eapply mb_ok; [reflexivity|]); destruct G3 as (_ & _ & G3 & _); unfold mb, raise; rewrite G3; reflexivity.
Qed.
End Kinds.
