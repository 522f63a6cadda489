(** * FaultVal: faults of values, includes, names, elements and operators. *)
From Verif Require Export FaultKinds.
From Verif Require Import Complete.
From Coq Require String.
Import String.StringSyntax.
Open Scope N_scope.

Section Kinds.
Context `{U : Unicode}.
Variable fs : fsys.
Variable file : option str.
Notation li := (load_file fs (inc_fuel fs)).
Notation inc := (include_meaning fs file).
Notation EA := (ev_atom inc limit64).
Notation EE := (ev_expr inc limit64).
Notation good := (good file).
Notation meets := (meets fs file).
Notation dsp n := (AgreeMain.disp fs li n).
Notation er k := (mkperr file k).
Local Existing Instance noexc.

(** *** Operations that fail *)
(** every error of [m] is of kind [k] *)
Definition errs {A} (k : pkind) (m : M A) : Prop := forall s e s', m s = (Err e, s') -> e = mkperr (s_file s) k.
Lemma mb_none {A B} (Q : B -> Prop) (pr : A -> B) k (m : M A) (ev : ES B) R R' P x s :
  good P R' x s -> agr Q pr m ev R s -> errs k m -> ev x = None -> mb (er k) m s.
Proof.
  intros G Ag Er E. unfold agr in Ag. unfold mb. destruct G as (_ & X & F & _). destruct (m s) as [[a|e'| |] s'] eqn:M; auto.
  - destruct Ag as (Ag & _). rewrite X in Ag. congruence.
  - rewrite <- F. eapply Er. exact M.
Qed.
Lemma errs_fail {A} k : errs k (@fail A k).
Proof. intros s e s' E. injection E as <- _. reflexivity. Qed.
Lemma errs_ok {A} k (m : M A) : (forall s, exists a s', m s = (Ok a, s')) -> errs k m.
Proof. intros H s e s' E. destruct (H s) as (a & s2 & E2). congruence. Qed.
Lemma errs_panic {A} k : errs k (@panic A).
Proof. intros s e s' E. discriminate. Qed.
Lemma errs_bind {A B} k (m : M A) (f : A -> M B) : errs k m -> (forall s a s', m s = (Ok a, s') -> s_file s' = s_file s) ->
  (forall a, errs k (f a)) -> errs k (bind m f).
Proof.
  intros H1 H2 H3 s e s' E. unfold bind in E. destruct (m s) as [[a|e1| |] s1] eqn:M; try discriminate.
  - apply H3 in E. rewrite E. f_equal. eapply H2; eauto.
  - injection E as <- _. eapply H1; eauto.
Qed.
Ltac opsimp := unfold binary_op_on_values, op_fault, op_types;
  cbn [get_type ty_eqb ty_is andb unwrap_o get_int get_frac get_str get_arr unwrap ratio_new numeric integral is_zero fst snd most_specific];
  unfold bind; cbn [ret fail unwrap_o get_int get_frac get_str get_arr unwrap]; unfold ret, fail.
Lemma z_frac_zero z : Qeq_bool (z # 1) 0 = (z =? 0)%Z.
Proof. apply eq_true_iff_eq. rewrite Qeq_bool_iff, Z.eqb_eq. unfold Qeq. cbn. lia. Qed.
Lemma errs_binop v w op pre : errs (op_fault op v w pre) (binary_op_on_values v w op (line_of pre) (col_of pre)).
Proof.
  intros s e s' E. revert E.
  destruct v as [|b|z|q|t|a|t|o]; try (destruct op, w; opsimp; intros E; injection E as <- _; reflexivity).
  - destruct w as [|b|z'|q|t|a|t|o]; try (destruct op; opsimp; intros E; injection E as <- _; reflexivity).
    + destruct op; opsimp; intros E; try discriminate E.
      * destruct (z' =? 0)%Z; [injection E as <- _; reflexivity|]. destruct (ratio_new z z'); discriminate E.
      * destruct (z' =? 0)%Z; [injection E as <- _; reflexivity|]. discriminate E.
    + destruct op; opsimp; intros E; try discriminate E.
      * rewrite q_is_zero_iff in E. destruct (Qeq_bool q 0); [injection E as <- _; reflexivity|]. discriminate E.
      * injection E as <- _. reflexivity.
  - destruct w as [|b|z|q'|t|a|t|o]; try (destruct op; opsimp; intros E; injection E as <- _; reflexivity).
    + destruct op; opsimp; intros E; try discriminate E.
      * rewrite q_is_zero_z, z_frac_zero in E. destruct (z =? 0)%Z; [injection E as <- _; reflexivity|]. discriminate E.
      * injection E as <- _. reflexivity.
    + destruct op; opsimp; intros E; try discriminate E.
      * rewrite q_is_zero_iff in E. destruct (Qeq_bool q' 0); [injection E as <- _; reflexivity|]. discriminate E.
      * injection E as <- _. reflexivity.
  - destruct w as [|b|z|q|t'|a|t'|o]; destruct op; opsimp; intros E; try discriminate E; injection E as <- _; reflexivity.
  - destruct w as [|b|z|q|t|a'|t|o]; destruct op; opsimp; intros E; try (injection E as <- _; reflexivity).
    revert E. cbn [most_specific]. destruct (most_specific (arr_inner_type a) (arr_inner_type a')) as [[t any]|]; [cbn; intros E; discriminate E|]. intros E; injection E as <- _; reflexivity.
Qed.
Lemma mb_binop P R x s v w op pre : good P R x s -> okv v -> okv w -> ev_op op v w x = None ->
  mb (er (op_fault op v w pre)) (binary_op_on_values v w op (line_of pre) (col_of pre)) s.
Proof.
  intros G V W E. pose proof G as (_ & _ & _ & K & _).
  eapply mb_none; [exact G|eapply (@binary_agr U noexc); [exact K|exact V|exact W]|apply errs_binop|exact E].
Qed.
Lemma errs_token v l k : errs (InvalidIncludeToken (get_type v) l k) (include_token v l k).
Proof.
  unfold include_token. destruct v; try apply errs_fail; [apply errs_ok; intros ?; eexists _, _; reflexivity|].
  assert (Sf : forall t s a s', sentinel t s = (Ok a, s') -> s_file s' = s_file s).
  { intros t s a s'. unfold sentinel. destruct (g_sent _ _); [intros E; injection E as _ <-; reflexivity|]. cbn. intros E; injection E as _ <-; reflexivity. }
  assert (Se : forall t k', errs k' (sentinel t)).
  { intros t k' s e s'. unfold sentinel. destruct (g_sent _ _); discriminate. }
  do 4 (apply errs_bind; [apply Se|apply Sf|intros ?]; match goal with |- errs _ (if ?b then _ else _) => destruct b;
    [apply errs_ok; intros s; eexists _, _; reflexivity|] end).
  apply errs_fail.
Qed.
Lemma mb_unary_err P R x s v op l k : good P R x s -> numeric v = false ->
  mb (er (UnaryOperatorError (get_type v) op l k)) (unary_op_on_value v op l k) s.
Proof.
  intros G N. destruct op, v; try discriminate N; eapply mb_failed; exact G.
Qed.
Lemma mb_no_file k0 f l k P R x s : good P R x s -> no_file fs file f ->
  mb (er (InvalidIncludePath f l k)) (finish_include fs li k0 f l k) s.
Proof.
  intros G N. pose proof G as (_ & _ & F & _). unfold finish_include. apply mb_ok with (a := file) (s' := s).
  { unfold getfile. rewrite F. reflexivity. }
  unfold no_file, inc_path in N. unfold mb, bind, assert_. destruct (has_parent file); [|exact I]. unfold ret.
  destruct N as [->| ->]; cbn [negb]; [|destruct (is_file fs _); cbn [negb]]; unfold fail; rewrite F; reflexivity.
Qed.

(** The error of loading a file. *)
Definition mbo {A} (e : perr) (r : outcome A * shared) : Prop :=
  match fst r with Ok _ => False | Err e' => e' = e | _ => True end.
Definition asked (full : str) (x : est) : shared :=
  mksh (sh_vals (snd x)) (reading fs file x) (ETry full :: sh_log (snd x)) (sh_g (snd x)).
Lemma mem_in f l : In f l -> mem_str f l = true.
Proof. apply mem_str_iff. Qed.
Lemma not_mem f l : ~ In f l -> mem_str f l = false.
Proof. intros H. destruct (mem_str f l) eqn:M; auto. apply mem_str_iff in M. contradiction. Qed.
Lemma canon_is_file p full : canon fs p = Some full -> is_file fs p = true.
Proof. unfold canon, is_file. destruct (fs_entry fs p) as [[]|]; [reflexivity|discriminate]. Qed.
Lemma mb_finish e L k0 f l k P R x s full : good P R x s -> canon fs (inc_path file f) = Some full ->
  (In full (reading fs file x) /\ e = er (CyclicInclude f l k) \/
   ~ In full (reading fs file x) /\ assoc full (sh_vals (snd x)) = None /\ mbo e (L k0 (inc_path file f) (asked full x))) ->
  mb e (finish_include fs L k0 f l k) s.
Proof.
  intros (_ & X & F & _) C H. unfold finish_include. apply mb_ok with (a := file) (s' := s).
  { unfold getfile. rewrite F. reflexivity. }
  unfold mb, bind, assert_. destruct (has_parent file); [|exact I]. unfold ret. fold (inc_path file f).
  rewrite (canon_is_file _ _ C). cbn [negb]. rewrite C. unfold get_sh, put_sh.
  assert (Z : forall s1, s_file s1 = file -> s_sh s1 = asked full x ->
    match (if mem_str full (sh_open (s_sh s1)) then fail (CyclicInclude f l k)
      else bind (match assoc full (sh_vals (s_sh s1)) with
        | Some v => fun s => (Ok v, s)
        | None => bind (run_include L k0 (inc_path file f)) (fun v => bind get_sh (fun sh => bind (put_sh (mksh ((full, v) :: sh_vals sh) (sh_open sh) (sh_log sh) (sh_g sh))) (fun _ => ret v)))
        end) (fun v => (fun s => (@Ok value v, s)))) s1 with (Ok _, _) => False | (Err e', _) => e' = e | _ => True end).
  { intros s1 F1 S1. rewrite S1. cbn [asked sh_open sh_vals]. destruct H as [[I1 ->]|(I1 & A & M)].
    - rewrite (mem_in _ _ I1). unfold fail. rewrite F1. reflexivity.
    - rewrite (not_mem _ _ I1), A. unfold bind, run_include, get_sh, put_sh, ret. rewrite S1. unfold mbo in M.
      destruct (L k0 (inc_path file f) (asked full x)) as [[v|e'| |] sh']; cbn [fst] in M; auto. }
  assert (S0 : s_sh s = snd x) by (rewrite <- X; reflexivity).
  unfold reading in *. unfold asked in Z. unfold reading in Z. destruct file as [g|] eqn:Ef.
  - destruct (canon fs g) as [cg|]; [|exact I]. unfold bind, get_sh, put_sh, ret in Z |- *. cbn [set_sh s_sh log_ev sh_vals sh_open sh_log sh_g].
    rewrite S0.
    set (o := if mem_str cg (sh_open (snd x)) then sh_open (snd x) else cg :: sh_open (snd x)) in *.
    specialize (Z (set_sh s (mksh (sh_vals (snd x)) o (ETry full :: sh_log (snd x)) (sh_g (snd x)))) F eq_refl).
    cbn [set_sh s_sh sh_vals sh_open sh_log sh_g] in *.
    destruct (mem_str full o); [exact Z|]. destruct (assoc full (sh_vals (snd x))) as [v|]; [contradiction Z|].
    match type of Z with context [run_include L k0 ?p ?q] => match goal with |- context [run_include L k0 p ?q'] => change q' with q end;
      destruct (run_include L k0 p q) as [[v|e'| |] s'] end; auto.
  - unfold bind, get_sh, put_sh, ret in Z |- *. cbn [set_sh s_sh log_ev sh_vals sh_open sh_log sh_g].
    rewrite S0.
    specialize (Z (set_sh s (mksh (sh_vals (snd x)) (sh_open (snd x)) (ETry full :: sh_log (snd x)) (sh_g (snd x)))) F eq_refl).
    cbn [set_sh s_sh sh_vals sh_open sh_log sh_g] in *.
    destruct (mem_str full (sh_open (snd x))); [exact Z|]. destruct (assoc full (sh_vals (snd x))) as [v|]; [contradiction Z|].
    match type of Z with context [run_include L k0 ?p ?q] => match goal with |- context [run_include L k0 p ?q'] => change q' with q end;
      destruct (run_include L k0 p q) as [[v|e'| |] s'] end; auto.
Qed.
Lemma mb_cycle L k0 f l k P R x s : good P R x s -> cyclic fs file f x -> mb (er (CyclicInclude f l k)) (finish_include fs L k0 f l k) s.
Proof. intros G (full & C & I). eapply mb_finish; eauto. Qed.

(** *** Values *)
Lemma deep_lt d : 64 <= d -> (MAX_DEPTH <? d + 1) = true.
Proof. intros H. apply N.ltb_lt. unfold MAX_DEPTH. lia. Qed.
Lemma scan_str_scanned acc b r l k y q : scan_str r l k acc b = (y, q) -> exists con, scanned r l k con q.
Proof. intros E. apply scan_str_spec in E as (con & E & _). eauto. Qed.
Lemma scan_num_scanned r l k y q : scan_numeric r l k [] [] false false = (y, q) -> exists con, scanned r l k con q.
Proof. intros E. apply scan_numeric_spec in E as (con & H & _); [eauto|reflexivity|reflexivity]. Qed.
Lemma include_word_iff v x : include_word v x <-> tok_ev v x <> None.
Proof.
  unfold include_word, tok_ev. destruct v; try (split; [intros []|intros H; apply H; reflexivity]).
  - split; [discriminate|auto].
  - unfold ebind. split.
    + intros (k & x' & ->). discriminate.
    + destruct (ev_keyword o [IObj; IStr; IArr; ITup] x) as [[[k|] x']|]; [eauto| |]; intros H; exfalso; apply H; reflexivity.
Qed.
Lemma mb_str e P R x s n ps l k d close (b : bool) : good P (34 :: R) x s ->
  (forall s', good (P ++ [34]) R x s' -> mb e (
    let* r := (fun s => let '(x, (r, l, k)) := scan_str (s_rest s) (s_line s) (s_col s) [] false in
                      (Ok x, set_stream s r l k)) in
    match r with
    | SS_ok s => ret (VStr s)
    | SS_bad_escape c => let* l := getline in let* k := col_minus_1 in fail (InvalidEscapeChar c l k)
    | SS_end => let* l := getline in fail (UnexpectedEnd l)
    end) s') ->
  mb e (parse_value fs li n ps l k d close b) s.
Proof.
  intros G H. eapply mb_value; [exact G|]. intros m. change (dsp m ps l k d close 34) with parse_str. unfold parse_str.
  eapply mb_next_unwrap; [exact G|]. intros s1 G1. apply mb_assert; [reflexivity|]. exact (H s1 G1).
Qed.
Lemma num_head w : num_text w -> exists c r, w = c :: r /\ (48 <= c <= 57 \/ c = 46 \/ c = 44).
Proof.
  intros (c & r & -> & H1 & H2 & _). exists c, r. split; auto. unfold num_char in H1. rewrite !orb_true_iff, !N.eqb_eq, digit_range in H1.
  destruct H1 as [[[H|H]|H]|H]; auto. contradiction.
Qed.
Lemma not_starts_value c : ~ starts_value c -> forall m ps l k d close, dsp m ps l k d close c =
  if c =? 94 then parse_variable fs li m ps l k d close else fail (InvalidValueChar c l k).
Proof.
  intros H m ps l k d close. unfold starts_value in H. unfold AgreeMain.disp.
  assert (N : forall z, In z [64; 34; 123; 91; 40; 60; 43; 45] -> (c =? z) = false).
  { intros z Hz. apply N.eqb_neq. intros ->. tauto. }
  rewrite !N by (cbn; tauto). destruct (is_numeric_char c) eqn:Nc; [tauto|]. rewrite orb_false_r.
  destruct (is_valid_field_char c true) eqn:V.
  - apply valid_first in V as [V| ->]; [tauto|]. reflexivity.
  - destruct (N.eqb_spec c 94) as [->|]; [discriminate V|]. reflexivity.
Qed.
Lemma mb_blank_end {A} P u x s : blank u -> good P u x s -> forall f : bool -> M A,
  (forall s', mb (er (UnexpectedEnd (line_of (P ++ u)))) (let* l := getline in @fail A (UnexpectedEnd l)) s' -> mb (er (UnexpectedEnd (line_of (P ++ u)))) (f false) s') ->
  mb (er (UnexpectedEnd (line_of (P ++ u)))) (bind find_char f) s.
Proof.
  intros B G f H. eapply mb_find_end; [exact B|exact G|]. intros s1 G1. apply H. eapply mb_line; [exact G1|reflexivity].
Qed.
(** the first expression of an include *)
Lemma mb_inc_first e P w ex t R x s n ps l k d close (b : bool) v x' : d < 64 -> ws w -> r_expr ex t -> folb (Some 62) R -> okps ps ->
  EE (d + 1) ps ex x = Some (v, x') -> good P (60 :: w ++ t ++ R) x s ->
  let P' := P ++ 60 :: w in
  (forall m s', okv v -> good (P' ++ t) R x' s' -> mb e (
      let* tok := include_token v (line_of P') (col_of P') in
      let* '(include_type, v, line, col) :=
        (match tok with
         | inr _ => ret (IObj, v, line_of P', col_of P')
         | inl ity =>
             let* found := find_char in
             if negb found then let* l := getline in fail (UnexpectedEnd l)
             else
               let* '(line, col) := getpos in
               let* v := parse_value fs li m ps line col (d + 1) (Some c_gt) true in
               ret (ity, v, line, col)
         end) in
      inc_tail fs include_type v line col) s') ->
  mb e (parse_value fs li n ps l k d close b) s.
Proof.
  intros D W He F Kp E G P' H. eapply mb_lt; [exact D|exact G|]. intros m s1 G1.
  destruct (r_expr_head _ _ He) as (c3 & r3 & Et & Hc3 & _). assert (G1' := G1). rewrite Et in G1'. cbn [app] in G1'.
  eapply mb_find; [exact W|exact Hc3|exact G1'|]. intros s2 G2. cbn [negb]. 
  change (c3 :: r3 ++ R) with ((c3 :: r3) ++ R) in G2. rewrite <- Et in G2. asc G2. fold P' in G2. eapply mb_getpos; [exact G2|].
  eapply mb_expr; [exact G2|exact He|exact F|exact Kp|exact E|]. intros s3 V G3. exact (H m s3 V G3).
Qed.
Lemma mb_tail_open P u x s k0 v l k : blank u -> good P u x s -> mb (er (UnexpectedEnd (line_of (P ++ u)))) (inc_tail fs k0 v l k) s.
Proof. intros B G. unfold inc_tail. eapply mb_blank_end; [exact B|exact G|]. intros s1 H. exact H. Qed.
Lemma mb_tail_close P w c r x s k0 v l k : ws w -> is_whitespace c = false -> c <> 62 -> good P (w ++ c :: r) x s ->
  mb (er (InvalidClosingBracket (Some 62) c (line_of (P ++ w)) (col_of (P ++ w)))) (inc_tail fs k0 v l k) s.
Proof.
  intros W Hc N G. unfold inc_tail. eapply mb_find; [exact W|exact Hc|exact G|]. intros s1 G1. cbn [negb].
  eapply mb_next_unwrap; [exact G1|]. intros s2 G2. replace (c =? 62) with false by (symmetry; apply N.eqb_neq; auto). cbn [negb].
  eapply (mb_back file (fun l q => InvalidClosingBracket (Some 62) c l q)); [exact G2|].
  unfold char_line, char_col. change c_nl with 10. rewrite (solid_nl _ Hc). reflexivity.
Qed.
Lemma mb_tail {e} P w r x s k0 v l k : ws w -> good P (w ++ 62 :: r) x s ->
  (forall s', good (P ++ w ++ [62]) r x s' -> mb e (match v with
      | VStr include_file => finish_include fs li k0 include_file l k
      | _ => fail (ExpectedType TStr (get_type v) l k)
      end) s') -> mb e (inc_tail fs k0 v l k) s.
Proof.
  intros W G H. unfold inc_tail. eapply mb_find; [exact W| |exact G|]; [reflexivity|]. intros s1 G1. cbn [negb].
  eapply mb_next_unwrap; [exact G1|]. intros s2 G2. cbn [N.eqb Pos.eqb negb]. apply H. asc G2. exact G2.
Qed.
Lemma ws_gt_folb w r : ws w -> folb (Some 62) (w ++ 62 :: r).
Proof.
  intros W. destruct w as [|c w]; [|apply ws_folb; [exact W|discriminate]].
  right. exists 62, r. split; [reflexivity|]. right. auto.
Qed.

Theorem values_sound r fields d close x P R k : value_fault fs file fields d close x P R k ->
  meets (AtValue r fields d close) (er k) x P R.
Proof.
  intros H Kp n s G. cbn [okplace] in Kp.
  destruct H as [c R0 Nv|cs c R0 Hcs Nv before|cs u Hcs Hu all|w c R0 Hw Ve Nn|w R0 Hw Hr Dg|c R0 Hc D|op|op a t R0 v x' Ha F E Nv pre|
    u D B|w e t R0 v x' D W He F E Nw pre|w e t u v x' D W He B E Iw all|w e t w' c R0 f x' D W He W' Nw' E Hc Nc pre|w e t w' R0 f x' D W He W' E Nf pre|
    w e t w' R0 f x' D W He W' E Nf pre|w e t R0 o x' D W He E Iw pre].
  - eapply mb_value; [exact G|]. intros m. rewrite not_starts_value by exact Nv. destruct (N.eqb_spec c 94) as [->|].
    + destruct m as [|m]; [exact I|]. eapply mb_at; [apply parse_variable_fb|].
      destruct (good_front file false [] (94 :: R0) [] (94 :: R0) (VS_bad 94) P x s) as (s1 & E1 & G1); auto; try discriminate.
      { intros l q. cbn. eauto. }
      cbn [with_at app] in G1. rewrite app_nil_r in G1. eapply mb_ok; [exact E1|]. unfold var_back. apply mb_bind.
      eapply (mb_pos file (fun l q => InvalidValueChar 94 l q)); [exact G1|reflexivity].
    + eapply mb_failed; exact G.
  - subst before. cbn [app] in G. eapply mb_str; [exact G|]. intros s1 G1.
    replace ((flat_map schar_text cs ++ [92]) ++ c :: R0) with ((flat_map schar_text cs ++ [92; c]) ++ R0) in G1 by (ascg; reflexivity).
    destruct (good_scan file (fun r l k => scan_str r l k [] false) _ _ R0 x _ (SS_bad_escape c) (scan_str_scanned [] false) G1) as (s2 & E2 & G2).
    { intros l q. rewrite <- app_assoc. destruct (scan_str_go cs ([92; c] ++ R0) Hcs l q []) as (l1 & k1 & v & ->).
      cbn [app scan_str]. destruct (adv 92 l1 k1) as [l2 k2]. change (92 =? 34) with false. change (92 =? 92) with true. cbv iota.
      destruct (adv c l2 k2) as [l3 k3]. rewrite escape_value, Nv. eauto. }
    eapply mb_ok; [exact E2|]. cbv iota. eapply (mb_back file (fun l q => InvalidEscapeChar c l q)); [|reflexivity].
    asc G2. ascg. exact G2.
  - subst all. cbn [app] in G. eapply mb_str; [exact G|]. intros s1 G1.
    rewrite <- (app_nil_r (flat_map schar_text cs ++ u)) in G1.
    destruct (good_scan file (fun r l k => scan_str r l k [] false) _ _ [] x _ SS_end (scan_str_scanned [] false) G1) as (s2 & E2 & G2).
    { intros l q. rewrite <- app_assoc. destruct (scan_str_go cs (u ++ []) Hcs l q []) as (l1 & k1 & v & ->). rewrite app_nil_r.
      destruct Hu as [->| ->]; cbn [scan_str]; [eauto|]. destruct (adv 92 l1 k1) as [l2 k2]. change (92 =? 34) with false. change (92 =? 92) with true. cbv iota. eauto. }
    eapply mb_ok; [exact E2|]. cbv iota. eapply mb_line; [exact G2|]. ascg. reflexivity.
  - destruct (num_head w (proj1 Hw)) as (c0 & r0 & E0 & Hc0). assert (G' := G). rewrite E0 in G'. cbn [app] in G'.
    eapply mb_value; [exact G'|]. intros m. rewrite disp_num by exact Hc0. unfold parse_numeric.
    destruct (good_scan file (fun r l k => scan_numeric r l k [] [] false false) _ _ (c :: R0) x _ (NS_bad c) scan_num_scanned G) as (s2 & E2 & G2).
    { intros l q. apply scan_num_bad; auto. }
    eapply mb_ok; [exact E2|]. cbv iota. eapply (mb_pos file (fun l q => InvalidValueChar c l q)); [exact G2|reflexivity].
  - destruct (num_head w (proj1 Hw)) as (c0 & r0 & E0 & Hc0). assert (G' := G). rewrite E0 in G'. cbn [app] in G'.
    eapply mb_value; [exact G'|]. intros m. rewrite disp_num by exact Hc0. unfold parse_numeric.
    destruct (scan_num_empty w R0 Hw Hr Dg 1 1) as (_ & _ & dec & _).
    assert (X : exists dec s2, (let '(y, (r, l, k)) := scan_numeric (s_rest s) (s_line s) (s_col s) [] [] false false in (Ok y, set_stream s r l k))
       = (Ok (NS_ok [] [] dec), s2) /\ good (P ++ w) R0 x s2).
    { destruct (scan_num_empty w R0 Hw Hr Dg (s_line s) (s_col s)) as (l1 & k1 & dec1 & E1).
      pose proof (good_in _ _ _ _ _ G) as I0. pose proof (keeps_scan (P ++ w ++ R0) (fun r l k => scan_numeric r l k [] [] false false) scan_num_scanned s I0) as I1.
      destruct G as (R1 & X & F & K & _). rewrite R1, E1. exists dec1. eexists. split; [reflexivity|]. cbv beta in I1. rewrite R1, E1, app_assoc in I1.
      apply in_good in I1 as [L C]; [|reflexivity]. unfold FaultBase.good. auto 7. }
    destruct X as (dec' & s2 & E2 & G2). eapply mb_ok; [exact E2|]. cbv iota. destruct dec'; eapply mb_failed; exact G2.
  - eapply mb_value; [exact G|]. intros [|m].
    { cbn in Hc. destruct Hc as [<-|[<-|[<-|[<-|[]]]]]; exact I. }
    cbn in Hc. destruct Hc as [<-|[<-|[<-|[<-|[]]]]]; unfold AgreeMain.disp; cbn [N.eqb Pos.eqb];
      rewrite ?parse_obj_S, ?parse_arr_S, ?parse_tup_S, ?parse_include_S, deep_lt by exact D;
      (eapply (mb_pos file (fun l q => MaxDepth l q)); [exact G|reflexivity]).
  - eapply mb_sign; [exact G|]. intros m s1 G1. eapply mb_getpos; [exact G1|]. eapply mb_peek_nil; [exact G1|]. eapply mb_failed; exact G1.
  - eapply mb_sign; [exact G|]. intros m s1 G1. fold pre in G1. eapply mb_getpos; [exact G1|].
    destruct (r_atom_head _ _ Ha) as (c & r0 & Et & _). assert (G1' := G1). rewrite Et in G1'. cbn [app] in G1'. eapply mb_peek; [exact G1'|].
    eapply mb_atom; [exact G1|exact Ha|exact F|exact Kp|exact E|]. intros s2 V G2. eapply mb_unary_err; [exact G2|exact Nv].
  - eapply mb_lt; [exact D|exact G|]. intros m s1 G1.
    replace (P ++ 60 :: u) with ((P ++ [60]) ++ u) by (ascg; reflexivity).
    eapply mb_blank_end; [exact B|exact G1|]. intros s2 H. exact H.
  - eapply mb_inc_first; [exact D|exact W|exact He|apply complete_folb; exact F|exact Kp|exact E|exact G|]. intros m s1 V G1. fold pre. apply mb_bind.
    pose proof G1 as (_ & _ & _ & K1 & _).
    eapply mb_none; [exact G1|eapply (@token_agr U noexc); exact K1|apply errs_token|].
    rewrite include_word_iff in Nw. destruct (tok_ev v x'); [exfalso; apply Nw; discriminate|reflexivity].
  - eapply mb_inc_first; [exact D|exact W|exact He|apply blank_folb; exact B|exact Kp|exact E|exact G|]. intros m s1 V G1.
    apply include_word_iff in Iw. destruct (tok_ev v x') as [[o x'']|] eqn:T; [|congruence].
    replace (P ++ all) with (((P ++ 60 :: w) ++ t) ++ u) by (subst all; ascg; reflexivity).
    eapply mb_token; [exact G1|exact T|]. intros [k'|[]] s2 _ G2.
    + apply mb_bind. eapply mb_blank_end; [exact B|exact G2|]. intros s3 H. exact H.
    + apply mb_ret. eapply mb_tail_open; [exact B|exact G2].
  - eapply mb_inc_first; [exact D|exact W|exact He|apply ws_folb; [exact W'|exact Nw']|exact Kp|exact E|exact G|]. intros m s1 V G1.
    eapply mb_token; [exact G1|reflexivity|]. intros [k'|[]] s2 Ek G2; [discriminate|]. apply mb_ret.
    replace pre with (((P ++ 60 :: w) ++ t) ++ w') by (subst pre; ascg; reflexivity).
    eapply mb_tail_close; [exact W'|exact Hc|exact Nc|exact G2].
  - eapply mb_inc_first; [exact D|exact W|exact He|apply ws_gt_folb; exact W'|exact Kp|exact E|exact G|]. intros m s1 V G1.
    eapply mb_token; [exact G1|reflexivity|]. intros [k'|[]] s2 Ek G2; [discriminate|]. apply mb_ret.
    eapply mb_tail; [exact W'|exact G2|]. intros s3 G3. fold pre. eapply mb_no_file; [exact G3|exact Nf].
  - eapply mb_inc_first; [exact D|exact W|exact He|apply ws_gt_folb; exact W'|exact Kp|exact E|exact G|]. intros m s1 V G1.
    eapply mb_token; [exact G1|reflexivity|]. intros [k'|[]] s2 Ek G2; [discriminate|]. apply mb_ret.
    eapply mb_tail; [exact W'|exact G2|]. intros s3 G3. fold pre. eapply mb_cycle; [exact G3|exact Nf].
  - eapply mb_inc_first; [exact D|exact W|exact He|apply (ws_gt_folb []); constructor|exact Kp|exact E|exact G|]. intros m s1 V G1.
    apply include_word_iff in Iw. destruct (tok_ev (VObj o) x') as [[k0 x'']|] eqn:T; [|congruence].
    eapply mb_token; [exact G1|exact T|]. intros [k'|[]] s2 Ek G2.
    + apply mb_bind. eapply mb_find0; [|exact G2|]; [reflexivity|]. intros s3 G3. cbn [negb]. eapply mb_getpos; [exact G3|].
      apply mb_bind. destruct m as [|m]; [exact I|]. eapply mb_value; [exact G3|]. intros m'.
      rewrite not_starts_value. 2:{ unfold starts_value. intros [Hl|[Hn|Hn]]; [apply letter_lod, lod_range in Hl; lia|discriminate|].
        cbn in Hn. repeat destruct Hn as [Hn|Hn]; try discriminate; contradiction. }
      cbn [N.eqb Pos.eqb]. replace pre with ((P ++ 60 :: w) ++ t) by (subst pre; ascg; reflexivity). eapply mb_failed; exact G3.
    + exfalso. unfold tok_ev in T. unfold ebind in T. cbn [tok_pr] in Ek.
      destruct (ev_keyword o [IObj; IStr; IArr; ITup] x') as [[[kk|] y]|]; try discriminate. injection T as <- <-. discriminate.
Qed.

(** *** After the keyword of an include *)
Lemma mb_inc_second e P ex t R x s n ps d k0 v x' : r_expr ex t -> folb (Some 62) R -> okps ps ->
  EE d ps ex x = Some (v, x') -> good P (t ++ R) x s ->
  (forall s', okv v -> good (P ++ t) R x' s' -> mb e (inc_tail fs k0 v (line_of P) (col_of P)) s') ->
  mb e (inc_code fs n ps d k0) s.
Proof.
  intros He F Kp E G H. unfold inc_code.
  destruct (r_expr_head _ _ He) as (c3 & r3 & Et & Hc3 & _). assert (G' := G). rewrite Et in G'. cbn [app] in G'.
  eapply mb_find0; [exact Hc3|exact G'|]. intros s2 G2. cbn [negb].
  change (c3 :: r3 ++ R) with ((c3 :: r3) ++ R) in G2. rewrite <- Et in G2. eapply mb_getpos; [exact G2|].
  eapply mb_expr; [exact G2|exact He|exact F|exact Kp|exact E|]. intros s3 V G3. exact (H s3 V G3).
Qed.
Theorem include_sound fields d k0 x P R k : include_fault fs file fields d x P R k ->
  meets (InInc fields d k0) (er k) x P R.
Proof.
  intros H Kp n s G. cbn [okplace] in Kp.
  destruct H as [u B|e t u v x' He B E|e t w' c R0 v x' He W' Nw' E Hc Nc pre|e t w' R0 v x' He W' E Nt|e t w' R0 f x' He W' E Nf|e t w' R0 f x' He W' E Nf].
  - unfold inc_code. eapply mb_blank_end; [exact B|exact G|]. intros s1 H. exact H.
  - eapply mb_inc_second; [exact He|apply blank_folb; exact B|exact Kp|exact E|exact G|]. intros s1 V G1.
    rewrite app_assoc. eapply mb_tail_open; [exact B|exact G1].
  - eapply mb_inc_second; [exact He|apply ws_folb; [exact W'|exact Nw']|exact Kp|exact E|exact G|]. intros s1 V G1.
    subst pre. rewrite app_assoc. eapply mb_tail_close; [exact W'|exact Hc|exact Nc|exact G1].
  - eapply mb_inc_second; [exact He|apply ws_gt_folb; exact W'|exact Kp|exact E|exact G|]. intros s1 V G1.
    eapply mb_tail; [exact W'|exact G1|]. intros s2 G2.
    destruct v; try (exfalso; apply Nt; reflexivity); eapply mb_failed; exact G2.
  - eapply mb_inc_second; [exact He|apply ws_gt_folb; exact W'|exact Kp|exact E|exact G|]. intros s1 V G1.
    eapply mb_tail; [exact W'|exact G1|]. intros s2 G2. eapply mb_no_file; [exact G2|exact Nf].
  - eapply mb_inc_second; [exact He|apply ws_gt_folb; exact W'|exact Kp|exact E|exact G|]. intros s1 V G1.
    eapply mb_tail; [exact W'|exact G1|]. intros s2 G2. eapply mb_cycle; [exact G2|exact Nf].
Qed.

(** *** Names and dots *)
Lemma not_lod_field c : ~ letter_or_digit c -> is_valid_field_char c false = false.
Proof. intros H. destruct (is_valid_field_char c false) eqn:V; auto. apply valid_rest in V. contradiction. Qed.
Lemma lod_named glob n : Forall letter_or_digit n -> glob = false -> forall R, hd_error R <> Some 64 -> hd_error (n ++ R) <> Some 64.
Proof. intros H _ R N. apply lod_not_at; auto. Qed.
Lemma ended_not_at R : ended R -> hd_error R <> Some 64.
Proof. intros [->|(c & r & -> & H)]; cbn; [discriminate|]. intros E. injection E as ->. discriminate. Qed.
Lemma good_front_end glob m R P x s : Forall letter_or_digit m -> ended R -> with_at glob m ++ R <> [] -> good P (with_at glob m ++ R) x s ->
  exists s', var_front s = (Ok (VS_end (with_at glob m), glob), s') /\ good (P ++ with_at glob m) R x s'.
Proof.
  intros Hm F Nn G. destruct (good_front file glob m R [] R (VS_end (with_at glob m)) P x s Hm) as (s' & E & G'); auto.
  - intros _. apply lod_not_at; auto using ended_not_at.
  - intros l k. destruct F as [->|(c & r & -> & V)]; [cbn; eauto|]. cbn [scan_var]. destruct (adv c l k) as [l1 k1].
    replace (c =? 46) with false by (symmetry; apply N.eqb_neq; intros ->; discriminate). rewrite V. eauto.
  - exists s'. split; [exact E|]. rewrite app_nil_r in G'. exact G'.
Qed.
(** a name that is looked up in vain *)
Lemma mb_lookup_fails glob m R P x s n ps d close e :
  Forall letter_or_digit m -> name_done R -> good P (with_at glob m ++ R) x s ->
  (forall s', st s' = x -> s_file s' = file -> mb e (lookup_variable ps (with_at glob m) glob (line_of P) (col_of P)) s') ->
  mb e (parse_variable fs li n ps (line_of P) (col_of P) d close) s.
Proof.
  intros Hm Nd G H. destruct n as [|n]; [exact I|]. destruct (with_at glob m ++ R) as [|c0 r0] eqn:E0.
  { rewrite parse_variable_S. unfold mb, bind, peek_unwrap, peek, bind. destruct G as [-> _]. exact I. }
  rewrite <- E0 in G. eapply mb_at; [apply parse_variable_fb|]. unfold var_back. destruct Nd as [F|(c & r & -> & Hc)].
  - destruct (good_front_end glob m R P x s Hm F) as (s1 & E1 & G1); [congruence|exact G|].
    eapply mb_ok; [exact E1|]. cbv beta iota. apply mb_ret. cbv beta iota. apply mb_bind. apply H; apply G1.
  - destruct (good_front_dot _ _ _ _ _ _ _ Hm G) as (s1 & E1 & G1).
    eapply mb_ok; [exact E1|]. cbv beta iota. apply mb_assoc. eapply mb_peek; [exact G1|].
    destruct (N.eqb_spec c 64) as [->|N].
    + apply mb_ret. cbv beta iota. apply mb_bind. apply H; apply G1.
    + replace (is_valid_field_char c true || is_numeric_char c) with true by (symmetry; apply after_dot_iff; tauto).
      apply mb_ret. cbv beta iota. apply mb_bind. apply H; apply G1.
Qed.
Lemma mb_failed0 {A} k s : s_file s = file -> mb (er k) (@fail A k) s.
Proof. intros <-. apply mb_fail. Qed.
Lemma lit_not_at (m : str) t : hd_error t <> Some 64 -> str_eqb (64 :: m) t = false.
Proof. intros H. apply str_eqb_neq. intros E. apply H. rewrite <- E. reflexivity. Qed.
Lemma get_out_of_bounds v vs i : elements v = Some vs -> (length vs <= N.to_nat i)%nat ->
  match v with VArr a => arr_get a i | VTup t => tup_get t i | _ => OOk VNull end = OErr (out_of_bounds v i).
Proof.
  intros E L. destruct v; try discriminate; injection E as <-; cbn [out_of_bounds].
  - unfold arr_get, arr_len. destruct (N.leb_spec (N.of_nat (length (arr_values a))) i); [reflexivity|lia].
  - unfold tup_get, tup_len. destruct (N.leb_spec (N.of_nat (length (tup_values t))) i); [reflexivity|lia].
Qed.
Lemma mb_index e P x s n0 ps l k d close glob n a t r v x' i x'' : good P (with_at glob n ++ 46 :: t ++ r) x s ->
  var_name glob n -> okps ps -> ev_name ps glob n x = Some (v, x') -> elements v <> None -> dot_sub a -> r_atom a t -> ended r ->
  EA (d + 1) ps a x' = Some (i, x'') ->
  let P' := P ++ with_at glob n ++ [46] in
  (forall s', good (P' ++ t) r x'' s' -> mb e (index_by (fun j => match v with VArr a => arr_get a j | VTup t => tup_get t j | _ => OOk VNull end) i (line_of P') (col_of P')) s') ->
  mb e (parse_variable fs li n0 ps l k d close) s.
Proof.
  intros G Hn Kp E Hv Ds Ha F Ei P' H. destruct (r_atom_head _ _ Ha) as (c & r0 & Et & _).
  assert (Hc : after_dot c \/ c = 64).
  { destruct Ha as [w Hw|cs Hcs|gl m Hm|gl m sub t Hm Hs Ha|
      op a t Ha|es w t W Ha|es w t W Ha|its w t W Ha|ex w t w' W Ha W'|ex e2 w t w' t2 w2 W Ha W' N' H2 W2]; try contradiction.
    - destruct (num_head w Hw) as (c1 & r1 & E1 & H1). rewrite E1 in Et. injection Et as <- _. left. right.
      unfold is_numeric_char. destruct H1 as [H1|[->| ->]]; [apply digit_range in H1; rewrite H1|..]; reflexivity.
    - destruct Hm as (c1 & r1 & -> & H1 & _). destruct gl; cbn [app] in Et; injection Et as <- _; auto. left. left. left. exact H1.
    - destruct Hm as (c1 & r1 & -> & H1 & _). destruct gl; cbn [app] in Et; injection Et as <- _; auto. left. left. left. exact H1. }
  assert (G' := G). rewrite Et in G'. cbn [app] in G'.
  eapply mb_dotted; [exact G'|exact Hn|exact Kp|exact Hc|exact E|]. intros m s1 V G1. fold P' in G1. fold P'.
  change (c :: r0 ++ r) with ((c :: r0) ++ r) in G1. rewrite <- Et in G1.
  destruct v; try (exfalso; apply Hv; reflexivity);
    (eapply mb_atom; [exact G1|exact Ha|left; exact F|exact Kp|exact Ei|]; intros s2 V2 G2; exact (H s2 G2)).
Qed.
Theorem names_sound dot fields d close x P R k : name_fault fs file dot fields d x P R k ->
  meets (AtName dot fields d close) (er k) x P R.
Proof.
  intros H Kp n0 s G. cbn [okplace] in Kp.
  destruct H as [glob n c r Dg Hn Ne Nd Ve Nl pre|glob n Dg Hn all|glob n c r Dg Hn Nc Na pre|R Dt Nd|n R Dt Hn Nn Nd A|n R Hn Nd A1 A2 A3|
    glob n c r v x' Dg Hn Hc E Nc|glob n r o x' Dg Hn E pre|glob n a t r v x' i x'' Dg Hn E El Ds Ha F Ei Nt pre|
    glob n a t r v vs x' i x'' Dg Hn E El Ds Ha F Ei B|glob n a t r v x' i x'' Dg Hn E El Ds Ha F Ei B pre].
  - destruct n0 as [|n0]; [exact I|]. eapply mb_at; [apply parse_variable_fb|].
    destruct (good_front file glob n (c :: r) [] (c :: r) (VS_bad c) P x s Hn) as (s1 & E1 & G1); auto.
    + intros ->. destruct n as [|c1 n].
      * cbn. intros E. injection E as ->. destruct Ne as [Ne|Ne]; apply Ne; reflexivity.
      * cbn. inversion Hn as [|? ? H1 _]; subst. apply lod_range in H1. intros E. injection E as ->. lia.
    + destruct glob, n; discriminate.
    + intros l q. cbn [scan_var]. destruct (adv c l q) as [l1 k1]. replace (c =? 46) with false by (symmetry; apply N.eqb_neq; auto).
      rewrite Ve, not_lod_field by auto. eauto.
    + rewrite app_nil_r in G1. eapply mb_ok; [exact E1|]. unfold var_back. apply mb_bind.
      eapply (mb_pos file (fun l q => InvalidValueChar c l q)); [exact G1|reflexivity].
  - destruct n0 as [|n0]; [exact I|]. eapply mb_at; [apply parse_variable_fb|]. subst all.
    destruct (good_front_dot _ _ _ _ _ _ _ Hn G) as (s1 & E1 & G1). eapply mb_ok; [exact E1|]. unfold var_back. apply mb_bind.
    eapply mb_peek_nil; [exact G1|]. eapply mb_line; [exact G1|reflexivity].
  - destruct n0 as [|n0]; [exact I|]. eapply mb_at; [apply parse_variable_fb|].
    destruct (good_front_dot _ _ _ _ _ _ _ Hn G) as (s1 & E1 & G1). eapply mb_ok; [exact E1|]. unfold var_back. apply mb_bind.
    eapply mb_peek; [exact G1|]. replace (c =? 64) with false by (symmetry; apply N.eqb_neq; auto).
    destruct (is_valid_field_char c true || is_numeric_char c) eqn:V; [apply after_dot_iff in V; contradiction|].
    eapply (mb_pos file (fun l q => InvalidValueChar c l q)); [exact G1|reflexivity].
  - eapply (mb_lookup_fails true []); [constructor|exact Nd|exact G|]. intros s1 X F. cbn [with_at]. unfold lookup_variable.
    rewrite !lit_not_at by (cbn; discriminate). change (str_eqb [64] (lit "@")) with true. cbv iota. apply mb_failed0; exact F.
  - eapply (mb_lookup_fails true n); [exact Hn|exact Nd|exact G|]. intros s1 X F. cbn [with_at]. unfold lookup_variable.
    rewrite !lit_not_at by (cbn; discriminate). replace (str_eqb (64 :: n) (lit "@")) with false.
    2:{ symmetry. apply str_eqb_neq. cbn. congruence. }
    eapply mb_ok; [reflexivity|]. change (s_globals s1) with (fst (st s1)). rewrite X, A. apply mb_failed0; exact F.
  - eapply (mb_lookup_fails false n); [exact Hn|exact Nd|exact G|]. intros s1 X F. cbn [with_at]. unfold lookup_variable.
    unfold constants in A1. unfold keywords in A2. cbn [assoc] in A1, A2. rewrite !(str_eqb_sym _ n) in A1. rewrite !(str_eqb_sym _ n) in A2.
    destruct (str_eqb n (lit "null")); [discriminate|]. destruct (str_eqb n (lit "true")); [discriminate|].
    destruct (str_eqb n (lit "false")); [discriminate|].
    destruct (str_eqb n (lit "Obj")); [discriminate|]. destruct (str_eqb n (lit "Str")); [discriminate|].
    destruct (str_eqb n (lit "Arr")); [discriminate|]. destruct (str_eqb n (lit "Tup")); [discriminate|].
    replace (str_eqb n (lit "@")) with false.
    2:{ symmetry. apply str_eqb_neq. intros ->. inversion Hn as [|? ? H1 _]; subst. apply lod_range in H1. lia. }
    rewrite A3. apply mb_failed0; exact F.
  - eapply mb_dotted; [exact G|exact Hn|exact Kp|exact Hc|exact E|]. intros m s1 V G1.
    destruct v; try discriminate Nc; eapply mb_failed; exact G1.
  - eapply mb_dotted; [exact G|exact Hn|exact Kp|right; reflexivity|exact E|]. intros m s1 V G1. cbn [N.eqb Pos.eqb].
    eapply mb_failed; exact G1.
  - eapply mb_index; [exact G|exact Hn|exact Kp|exact E|exact El|exact Ds|exact Ha|exact F|exact Ei|]. intros s1 G1. fold pre. unfold index_by.
    destruct i; try (exfalso; apply Nt; reflexivity); eapply mb_failed; exact G1.
  - eapply mb_index; [exact G|exact Hn|exact Kp|exact E|congruence|exact Ds|exact Ha|exact F|exact Ei|]. intros s1 G1. unfold index_by, to_usize.
    replace ((0 <=? i)%Z && (i <=? 18446744073709551615)%Z) with true.
    2:{ symmetry. apply andb_true_iff. rewrite !Z.leb_le. change (2 ^ 64)%Z with 18446744073709551616%Z in B. lia. }
    rewrite (get_out_of_bounds v vs) by (auto; lia). eapply mb_ok; [reflexivity|]. destruct G1 as (_ & _ & F1 & _).
    unfold mb, raise. rewrite F1. reflexivity.
  - eapply mb_index; [exact G|exact Hn|exact Kp|exact E|exact El|exact Ds|exact Ha|exact F|exact Ei|]. intros s1 G1. fold pre. unfold index_by, to_usize.
    replace ((0 <=? i)%Z && (i <=? 18446744073709551615)%Z) with false.
    2:{ symmetry. apply andb_false_iff. rewrite !Z.leb_gt. change (2 ^ 64)%Z with 18446744073709551616%Z in B. lia. }
    eapply mb_failed; exact G1.
Qed.

(** *** Elements *)
Lemma check_step_types t any u t1 t2 : arr_check_step t any u = inr (t1, t2) -> t1 = t /\ t2 = u.
Proof.
  unfold arr_check_step. destruct any.
  - destruct (most_specific t u) as [[]|]; intros E; [discriminate|]. injection E as <- <-. auto.
  - destruct (negb (ty_eqb t u)); intros E; [|discriminate]. injection E as <- <-. auto.
Qed.
Theorem arr_sound fields d els x P R k : arr_fault fs file fields d els x P R k ->
  meets (InArr fields d els) (er k) x P R.
Proof.
  intros H (Kp & Ke & _) n s G t0 Ht0. destruct n as [|n]; [exact I|]. rewrite arr_loop_S.
  destruct H as [R k [R' B|c r Ed Nc]|e t u v x' He B E L|e t r v x' u He F E L1 L2].
  - eapply mb_blank_end; [exact B|exact G|]. intros s1 H. exact H.
  - eapply mb_find0; [apply end_solid; exact Ed|exact G|]. intros s1 G1. cbn [negb]. eapply mb_peek_unwrap; [exact G1|].
    replace (c =? 93) with false by (symmetry; apply N.eqb_neq; auto). rewrite Ed.
    eapply (mb_pos file (fun l q => InvalidClosingBracket (Some 93) c l q)); [exact G1|reflexivity].
  - destruct (r_expr_head _ _ He) as (c3 & r3 & Et & Hc3 & Hc4). assert (G' := G). rewrite Et in G'. cbn [app] in G'.
    eapply mb_find0; [exact Hc3|exact G'|]. intros s1 G1. cbn [negb]. eapply mb_peek_unwrap; [exact G1|].
    replace (c3 =? 93) with false by (symmetry; apply N.eqb_neq; intros ->; discriminate). rewrite Hc4. eapply mb_getpos; [exact G1|].
    change (c3 :: r3 ++ u) with ((c3 :: r3) ++ u) in G1. rewrite <- Et in G1.
    eapply mb_expr; [exact G1|exact He|apply blank_folb; exact B|exact Kp|exact E|]. intros s2 V G2.
    pose proof (check_step_lub t0 (has_any t0) (get_type v) eq_refl) as CS. rewrite (lub_snoc els v t0 Ht0) in L.
    destruct (arr_check_step t0 (has_any t0) (get_type v)) as [[t2 any2]|[t1 t2]]; [|congruence].
    destruct n as [|n]; [exact I|]. rewrite arr_loop_S. rewrite app_assoc. eapply mb_blank_end; [exact B|exact G2|]. intros s3 H. exact H.
  - destruct (r_expr_head _ _ He) as (c3 & r3 & Et & Hc3 & Hc4). assert (G' := G). rewrite Et in G'. cbn [app] in G'.
    eapply mb_find0; [exact Hc3|exact G'|]. intros s1 G1. cbn [negb]. eapply mb_peek_unwrap; [exact G1|].
    replace (c3 =? 93) with false by (symmetry; apply N.eqb_neq; intros ->; discriminate). rewrite Hc4. eapply mb_getpos; [exact G1|].
    change (c3 :: r3 ++ r) with ((c3 :: r3) ++ r) in G1. rewrite <- Et in G1.
    eapply mb_expr; [exact G1|exact He|apply complete_folb; exact F|exact Kp|exact E|]. intros s2 V G2.
    rewrite Ht0 in L1. injection L1 as <-.
    pose proof (check_step_lub t0 (has_any t0) (get_type v) eq_refl) as CS. rewrite (lub_snoc els v t0 Ht0) in L2.
    destruct (arr_check_step t0 (has_any t0) (get_type v)) as [[t2 any2]|[t1 t2]] eqn:Ck; [destruct CS; congruence|].
    apply check_step_types in Ck as [-> ->]. eapply mb_failed; exact G2.
Qed.
Theorem tup_sound fields d els x P R k : tup_fault fs file fields d x P R k ->
  meets (InTup fields d els) (er k) x P R.
Proof.
  intros H (Kp & Ke) n s G. destruct n as [|n]; [exact I|]. rewrite tup_loop_S.
  destruct H as [R k [R' B|c r Ed Nc]|e t u v x' He B E].
  - eapply mb_blank_end; [exact B|exact G|]. intros s1 H. exact H.
  - eapply mb_find0; [apply end_solid; exact Ed|exact G|]. intros s1 G1. cbn [negb]. eapply mb_peek_unwrap; [exact G1|].
    replace (c =? 41) with false by (symmetry; apply N.eqb_neq; auto). rewrite Ed.
    eapply (mb_pos file (fun l q => InvalidClosingBracket (Some 41) c l q)); [exact G1|reflexivity].
  - destruct (r_expr_head _ _ He) as (c3 & r3 & Et & Hc3 & Hc4). assert (G' := G). rewrite Et in G'. cbn [app] in G'.
    eapply mb_find0; [exact Hc3|exact G'|]. intros s1 G1. cbn [negb]. eapply mb_peek_unwrap; [exact G1|].
    replace (c3 =? 41) with false by (symmetry; apply N.eqb_neq; intros ->; discriminate). rewrite Hc4. eapply mb_getpos; [exact G1|].
    change (c3 :: r3 ++ u) with ((c3 :: r3) ++ u) in G1. rewrite <- Et in G1.
    eapply mb_expr; [exact G1|exact He|apply blank_folb; exact B|exact Kp|exact E|]. intros s2 V G2.
    destruct n as [|n]; [exact I|]. rewrite tup_loop_S. rewrite app_assoc. eapply mb_blank_end; [exact B|exact G2|]. intros s3 H. exact H.
Qed.

Theorem arr_file_sound els x P R k : arr_file_fault fs file els x P R k -> meets (ArrFile els) (er k) x P R.
Proof.
  intros H (Ke & _) n s G t0 Ht0. destruct n as [|n]; [exact I|]. cbn [arr_file_loop]. destruct H as [e t r v x' u He F E L1 L2].
  destruct (r_expr_head _ _ He) as (c3 & r3 & Et & Hc3 & Hc4). assert (G' := G). rewrite Et in G'. cbn [app] in G'.
  eapply mb_find0; [exact Hc3|exact G'|]. intros s1 G1. cbn [negb]. eapply mb_getpos; [exact G1|].
  change (c3 :: r3 ++ r) with ((c3 :: r3) ++ r) in G1. rewrite <- Et in G1.
  eapply mb_expr; [exact G1|exact He|apply complete_folb; exact F|constructor|exact E|]. intros s2 V G2.
  rewrite Ht0 in L1. injection L1 as <-.
  pose proof (check_step_lub t0 (has_any t0) (get_type v) eq_refl) as CS. rewrite (lub_snoc els v t0 Ht0) in L2.
  destruct (arr_check_step t0 (has_any t0) (get_type v)) as [[t2 any2]|[t1 t2]] eqn:Ck; [destruct CS; congruence|].
  apply check_step_types in Ck as [-> ->]. eapply mb_failed; exact G2.
Qed.

(** *** Operators *)
Lemma no_op c : is_value_end_char c = false \/ is_end_delimiter c = true -> get_op c = None.
Proof.
  intros H. destruct (get_op c) as [op|] eqn:E; auto. apply get_op_text in E as ->.
  destruct H as [H|H]; [rewrite op_text_end in H; discriminate|]. destruct op; discriminate.
Qed.
Lemma mb_chain_stop e P R x s n ps d close vals ops : good P R x s ->
  match R with [] => True | c :: _ => get_op c = None end ->
  mb e (let* _ := check_value_end close in low_code (vals, ops)) s ->
  mb e (chain_code fs n ps d close vals ops) s.
Proof.
  intros G Ng H. unfold chain_code. destruct n as [|n]; [exact I|]. rewrite parse_ops_S. apply mb_assoc. destruct R as [|c R].
  - eapply mb_peek_nil; [exact G|]. apply mb_ret. exact H.
  - eapply mb_peek; [exact G|]. rewrite Ng. apply mb_ret. exact H.
Qed.
Lemma low_fault P R terms : forall acc cur pre x k s, okv cur -> Forall okv (map (fun t => fst (fst t)) terms) -> okv (fst acc) ->
  sum_fault (Some acc) terms cur pre x = Some k -> good P R x s ->
  mb (er k) (eval_low_ops (fst acc) (chain_vals terms cur pre) (snd acc :: map snd terms)) s.
Proof.
  induction terms as [|[[v p] op'] terms IH]; intros [a op] cur pre x k s Vc Vt Va H G; cbn [sum_fault fst snd] in *.
  - unfold chain_vals. cbn [map app at_pre eval_low_ops fst snd].
    destruct (ev_op op a cur x) as [|] eqn:E; [discriminate|]. injection H as <-. apply mb_bind. eapply mb_binop; eauto.
  - change (chain_vals ((v, p, op') :: terms) cur pre) with ((v, line_of p, col_of p) :: chain_vals terms cur pre).
    inversion Vt as [|? ? Vv Vt']; subst. cbn [map fst snd] in *.
    destruct (ev_op op a v x) as [[s' x']|] eqn:E.
    + cbn [eval_low_ops snd]. assert (G0 : good P ([] ++ R) x s) by exact G.
      eapply (mb_agr file (er k) okv idp); [|exact G0|apply keeps_binop|exact E|].
      * destruct G as (<- & _ & _ & K & _). apply (@binary_agr U noexc s a v op (line_of p) (col_of p) K Va Vv).
      * intros b s1 -> G1 Vb. rewrite app_nil_r in G1. exact (IH (s', op') cur pre x' k s1 Vc Vt' Vb H G1).
    + injection H as <-. cbn [eval_low_ops snd]. apply mb_bind. eapply mb_binop; eauto.
Qed.
Theorem chain_sound fields d close cl terms cur pre x P R k : fits (InChain fields d close cl terms cur pre) R ->
  chain_fault fs file fields d close terms cur pre x P R k ->
  meets (InChain fields d close cl terms cur pre) (er k) x P R.
Proof.
  intros _ H (Kp & Kt & Kc) n s G.
  destruct H as [c r Ve|c r Ed Nc|op|op a t r v x' Pr Ha F E Op|R k F S].
  - eapply mb_chain_stop; [exact G|apply no_op; auto|]. apply mb_bind. unfold check_value_end. eapply mb_peek; [exact G|]. rewrite Ve.
    eapply (mb_pos file (fun l q => InvalidValueChar c l q)); [exact G|reflexivity].
  - eapply mb_chain_stop; [exact G|apply no_op; auto|]. apply mb_bind. unfold check_value_end. eapply mb_peek; [exact G|].
    unfold is_value_end_char. rewrite Ed, orb_true_r. cbn [orb andb].
    replace (opt_char_eqb (Some c) close) with false.
    2:{ symmetry. destruct close as [c'|]; [|reflexivity]. cbn. apply N.eqb_neq. congruence. }
    cbn [negb]. eapply (mb_pos file (fun l q => InvalidClosingBracket close c l q)); [exact G|reflexivity].
  - unfold chain_code. eapply mb_op; [exact G|]. intros m s1 G1. apply mb_bind. eapply mb_peek_nil; [exact G1|].
    eapply mb_line; [exact G1|reflexivity].
  - eapply mb_chain_next; [exact Ha|exact F|exact Kp|exact E|exact G|]. intros m s1 V G1. rewrite Pr. apply mb_assoc. apply mb_bind.
    eapply mb_binop; [exact G1|exact Kc|exact V|]. unfold ev_op. rewrite Op. destruct op; try discriminate Pr; reflexivity.
  - apply complete_folb in F. eapply mb_chain_stop; [exact G| |].
    + destruct F as [->|(c & r & -> & [Hw|[He _]])]; [exact I| |apply no_op; auto].
      destruct (get_op c) as [op|] eqn:Eo; auto. apply get_op_text in Eo as ->. destruct op; discriminate.
    + eapply mb_ok; [eapply check_end_ok; [exact F|apply G]|]. unfold low_code. cbn [fst snd].
      destruct terms as [|[[v p] op'] terms]; [discriminate S|].
      change (chain_vals ((v, p, op') :: terms) cur pre) with ((v, line_of p, col_of p) :: chain_vals terms cur pre). cbv iota beta.
      inversion Kt as [|? ? Vv Vt']; subst. cbn [sum_fault] in S.
      exact (low_fault P R terms (v, op') cur pre x k s Kc Vt' Vv S G).
Qed.

Theorem fault_sound pl x P R k : fits pl R -> fault fs file pl x P R k -> meets pl (er k) x P R.
Proof.
  destruct pl; cbn [fault]; intros F H.
  - apply items_sound; auto.
  - apply arr_sound; auto.
  - apply tup_sound; auto.
  - apply arr_file_sound; auto.
  - contradiction.
  - apply include_sound; auto.
  - apply values_sound; auto.
  - apply names_sound; auto.
  - apply chain_sound; auto.
Qed.
(** The code of a text can only end with the fault of the text. *)
Theorem faulty_sound root x0 text k : faulty fs file root x0 text k -> meets_root fs file root (er k) x0 text.
Proof. intros (pl & x & P & R & -> & S & F & H). eapply spot_sound; [exact S|exact F|]. apply fault_sound; auto. Qed.
End Kinds.
