(** * FaultBase: tools for the proof that the parser reports the faults of Spot.v. *)
From Verif Require Export Spot Keeps.
From Coq Require String.
Import String.StringSyntax.
Open Scope N_scope.

(** ** Positions *)
Lemma advs_col t : forall l k, snd (advs t (l, k)) = fold_left (fun k c => if c =? c_nl then 1 else k + 1) t k.
Proof.
  induction t as [|c t IH]; intros l k; [reflexivity|]. rewrite advs_cons. cbn [fst snd fold_left].
  unfold adv. destruct (c =? c_nl); apply IH.
Qed.
Lemma pos_of P : pos_at P (line_of P) (col_of P).
Proof.
  pose proof (pos_at_advs P [] 1 1 pos_at_nil) as H. cbn [app] in H. rewrite advs_col in H.
  pose proof H as [E _]. rewrite E in H. exact H.
Qed.
Lemma line_app P t : line_of (P ++ t) = line_of P + N.of_nat (count_occ N.eq_dec t c_nl).
Proof. unfold line_of. rewrite count_occ_app. lia. Qed.
Lemma col_app P t : col_of (P ++ t) = fold_left (fun k c => if c =? c_nl then 1 else k + 1) t (col_of P).
Proof. apply fold_left_app. Qed.
Lemma pos_snoc P c : adv c (line_of P) (col_of P) = (line_of (P ++ [c]), col_of (P ++ [c])).
Proof.
  rewrite line_app, col_app. cbn [fold_left count_occ]. unfold adv. destruct (N.eqb_spec c c_nl) as [->|n].
  - destruct (N.eq_dec c_nl c_nl); [reflexivity|congruence].
  - destruct (N.eq_dec c c_nl); [congruence|]. f_equal. cbn. lia.
Qed.
Lemma col_pos P : 1 <= col_of P.
Proof. destruct (pos_of P) as (_ & l & t & _ & _ & _ & ->). lia. Qed.

(** ** Runs that can only end with a given error *)
Definition mb {A} (e : perr) (m : M A) (s : pstate) : Prop :=
  match m s with (Ok _, _) => False | (Err e', _) => e' = e | _ => True end.
Lemma mb_bind {A B} e (m : M A) (f : A -> M B) s : mb e m s -> mb e (bind m f) s.
Proof. unfold mb, bind. destruct (m s) as [[a|e'| |] s']; auto. intros []. Qed.
Lemma mb_ok {A B} e (m : M A) (f : A -> M B) s a s' : m s = (Ok a, s') -> mb e (f a) s' -> mb e (bind m f) s.
Proof. unfold mb, bind. intros ->. auto. Qed.
Lemma mb_assoc {A B C} e (m : M A) (f : A -> M B) (g : B -> M C) s :
  mb e (bind m (fun a => bind (f a) g)) s -> mb e (bind (bind m f) g) s.
Proof. unfold mb, bind. destruct (m s) as [[a|e'| |] s']; auto. Qed.
Lemma mb_fail {A} k s : mb (mkperr (s_file s) k) (@fail A k) s.
Proof. reflexivity. Qed.

Section Sound.
Context `{U : Unicode}.
Variable fs : fsys.
Variable file : option str.
Notation li := (load_file fs (inc_fuel fs)).
Notation inc := (include_meaning fs file).
Notation EA := (ev_atom inc limit64).
Notation EE := (ev_expr inc limit64).
Instance noexc : Exc := fun _ => False.
Definition aah n := @A_all_holds U noexc fs li file limit64 (fun d E => E) (fun d E => or_introl E) (load_wf fs (inc_fuel fs)) n.

(** The state after reading [P] in front of [R]. *)
Definition good (P R : str) (x : est) (s : pstate) : Prop :=
  s_rest s = R /\ st s = x /\ s_file s = file /\ okst s /\ s_line s = line_of P /\ s_col s = col_of P.
Lemma good_in P R x s : good P R x s -> in_text (P ++ R) s.
Proof. intros (R1 & _ & _ & _ & L & C). exists P. rewrite R1, L, C. split; auto. apply pos_of. Qed.
Lemma in_good P R s : in_text (P ++ R) s -> s_rest s = R -> s_line s = line_of P /\ s_col s = col_of P.
Proof.
  intros (pre & E & H) R1. rewrite R1 in E. apply app_inv_tail in E as ->. eapply pos_at_fun; [exact H|apply pos_of].
Qed.
Lemma good_init text sh : wfvals sh -> good [] text ([], sh) (mkst file text 1 1 [] sh).
Proof. intros W. unfold good. do 5 (split; [try reflexivity; apply okst_init; auto|]). reflexivity. Qed.

(** *** Steps *)
Lemma good_next P c r x s : good P (c :: r) x s -> next s = (Ok (Some c), adv1 s c r) /\ good (P ++ [c]) r x (adv1 s c r).
Proof.
  intros (R1 & X & F & K & L & C). unfold next, adv1. rewrite R1. rewrite L, C, pos_snoc. split; [reflexivity|].
  unfold good. cbn. auto 7.
Qed.
Lemma good_find P w c r x s : ws w -> is_whitespace c = false -> good P (w ++ c :: r) x s ->
  exists s', find_char s = (Ok true, s') /\ good (P ++ w) (c :: r) x s'.
Proof.
  intros W Hc G. pose proof (good_in _ _ _ _ G) as I0. destruct G as (R1 & X & F & K & L & C).
  destruct (find_char_found w c r s W R1 Hc) as (l & k & E).
  eexists. split; [exact E|]. pose proof (keeps_find _ s I0) as I1. rewrite E in I1.
  rewrite app_assoc in I1. apply in_good in I1 as [L1 C1]; [|reflexivity]. unfold good. auto 7.
Qed.
Lemma good_end P R x s : blank R -> good P R x s ->
  exists s', find_char s = (Ok false, s') /\ good (P ++ R) [] x s'.
Proof.
  intros (w & c & -> & W & LC) G. pose proof (good_in _ _ _ _ G) as I0. destruct G as (R1 & X & F & K & L & C).
  destruct (find_char_end w c s W LC R1) as (l & k & E).
  eexists. split; [exact E|]. pose proof (keeps_find _ s I0) as I1. rewrite E in I1.
  rewrite <- (app_nil_r (P ++ w ++ c)) in I1. apply in_good in I1 as [L1 C1]; [|reflexivity]. unfold good. auto 7.
Qed.
Lemma mb_agr {A B C} e (Q : B -> Prop) (pr : A -> B) (m : M A) (ev : ES B) (f : A -> M C) P t R x b x' s :
  agr Q pr m ev R s -> good P (t ++ R) x s -> keeps (P ++ t ++ R) m -> ev x = Some (b, x') ->
  (forall a s', pr a = b -> good (P ++ t) R x' s' -> Q b -> mb e (f a) s') ->
  mb e (bind m f) s.
Proof.
  intros G (R1 & X & F & K & L & C') Kp E H.
  specialize (Kp s (good_in _ _ _ _ (conj R1 (conj X (conj F (conj K (conj L C'))))))).
  unfold agr in G. unfold mb, bind. destruct (m s) as [[a|er| |] s']; auto.
  - destruct G as (G1 & G2 & G3 & G4 & G5). rewrite X, E in G1. injection G1 as G1 G6.
    rewrite app_assoc in Kp. apply in_good in Kp as [L1 C1]; auto.
    apply (H a s'); [congruence| |congruence]. unfold good. rewrite G3. auto 7.
  - destruct G as [[]|G]. rewrite X, E in G. discriminate.
Qed.

(** *** What follows a value *)
Lemma complete_folb b R : complete b R <-> folb b R.
Proof.
  unfold complete, folb, headed. split; (intros [->|(c & r & -> & H)]; [left; auto|right; exists c, r; split; auto]).
  - destruct H as [H|[H1 H2]]; auto.
  - destruct H as [H|H]; auto. destruct H; auto.
Qed.
Lemma ended_fol R : ended R <-> fol R.
Proof. reflexivity. Qed.
Lemma blank_folb b R : blank R -> folb b R.
Proof.
  intros (w & c & -> & W & L). destruct w as [|w0 w].
  - destruct L as [->|(body & -> & _)]; [left; auto|right]. eexists _, _. split; [reflexivity|]. left. reflexivity.
  - apply folb_ws; auto. discriminate.
Qed.

(** *** Operands *)
Notation disp n := (disp fs li n).
Lemma disp_closed n : forall a t d pairs line col brace rest s c r,
  r_atom a t -> ended rest \/ closed_atom a = true -> okps pairs -> s_rest s = t ++ rest -> s_file s = file -> okst s -> t = c :: r ->
  agr okv idp (disp n pairs line col d brace c) (EA d pairs a) rest s.
Proof.
  induction n as [n IHn] using (well_founded_induction lt_wf).
  intros a t d pairs line col brace rest s c r H [F|F] Kp R Fl K Ht.
  { eapply (@disp_agr U noexc fs li file limit64 n (aah n)); eauto. }
  destruct H as [w Hw|cs Hcs|glob m Hn|glob m sub t Hn Hs H|
    op a t H|es w t W H|es w t W H|its w t W H|e w t w' W H W'|e e2 w t w' t2 w2 W H W' N' H2 W2]; try discriminate F.
  - injection Ht as <- _. apply parse_str_agr; auto. rewrite R. cbn [app]. rewrite <- app_assoc. reflexivity.
  - injection Ht as <- _. cbn [app] in R. cbn [closed_atom] in F.
    replace (disp n pairs line col d brace (unop_text op)) with (parse_unary_op fs li n pairs d brace op)
      by (destruct op; reflexivity).
    destruct n as [|n]; [apply agr_nofuel|]. rewrite parse_unary_op_S.
    eapply agr_next; [exact R|]. apply agr_assert; [destruct op; reflexivity|]. apply agr_getpos.
    destruct (r_atom_head _ _ H) as (c & r1 & Ht & _).
    eapply agr_peek; [cbn; rewrite Ht; reflexivity|]. change (ev_atom inc limit64 d pairs (AUn op a)) with
      (ebind (EA (d + 1) pairs a) (fun v => elift (un_value op v))).
    eapply (agr_bind okv (fun y => y)).
    + destruct n as [|n]; [apply agr_nofuel|]. rewrite parse_value_S.
      eapply agr_peek_unwrap; [cbn; rewrite Ht; reflexivity|].
      eapply agr_congr; [intros x; apply ebind_ret|]. eapply agr_bind.
      * eapply (IHn n); eauto; reflexivity.
      * cbn beta. intros v s' R' F' K' V. apply agr_ret; [reflexivity|exact R'|auto|auto].
    + cbn beta. intros v s1 R1 F1 K1 V1. rewrite <- R1. apply unary_agr; auto.
  - injection Ht as <- _. cbn [app] in R. rewrite <- !app_assoc in R. eapply (AA _ _ _ _ n (aah n)); eauto.
  - injection Ht as <- _. cbn [app] in R. rewrite <- !app_assoc in R. eapply (AT _ _ _ _ n (aah n)); eauto.
  - injection Ht as <- _. cbn [app] in R. rewrite <- !app_assoc in R. eapply (AOb _ _ _ _ n (aah n)); eauto.
  - injection Ht as <- _. eapply (AI _ _ _ _ n (aah n)); eauto. constructor; auto.
  - injection Ht as <- _. eapply (AI _ _ _ _ n (aah n)); eauto. constructor; auto.
Qed.
Lemma val_closed n a t d pairs line col brace rest s :
  r_atom a t -> ended rest \/ closed_atom a = true -> okps pairs -> s_rest s = t ++ rest -> s_file s = file -> okst s ->
  agr okv idp (parse_value fs li n pairs line col d brace false) (EA d pairs a) rest s.
Proof.
  intros H F Kp R Fl K. destruct n as [|n]; [apply agr_nofuel|]. rewrite parse_value_S.
  destruct (r_atom_head _ _ H) as (c & r & Ht & _).
  eapply agr_peek_unwrap; [rewrite R, Ht; reflexivity|].
  eapply agr_congr; [intros x; apply ebind_ret|]. eapply agr_bind.
  - eapply disp_closed; eauto.
  - cbn beta. intros v s' R' F' K' V. apply agr_ret; auto.
Qed.

(** ** The code at each place *)
Definition items_code n ps par d close : M (list pair_t * option obj) :=
  let* found := find_char in
  if negb found then match close with Some _ => let* l := getline in fail (UnexpectedEnd l) | None => ret (ps, par) end
  else pairs_loop fs li n ps par d close.
Definition at_pre (p : value * str) : value * N * N := (fst p, line_of (snd p), col_of (snd p)).
Definition chain_vals (terms : list (value * str * binop)) (cur : value) (pre : str) : list (value * N * N) :=
  map at_pre (map fst terms ++ [(cur, pre)]).
Definition low_code (x : list (value * N * N) * list binop) : M value :=
  match fst x with [] => panic | (val1, _, _) :: vals' => eval_low_ops val1 vals' (snd x) end.
Definition chain_code n ps d close vals ops : M value :=
  let* x := parse_ops fs li n ps d close vals ops in
  let* _ := check_value_end close in low_code x.
Definition inc_tail (k : inc_ty) (v : value) (line col : N) : M value :=
  let* found := find_char in
  if negb found then let* l := getline in fail (UnexpectedEnd l)
  else
    let* c := next_unwrap in
    if negb (c =? c_gt) then
      let* l := getline in
      let* k := col_minus_1 in
      fail (InvalidClosingBracket (Some c_gt) c l k)
    else
      match v with
      | VStr include_file => finish_include fs li k include_file line col
      | _ => fail (ExpectedType TStr (get_type v) line col)
      end.
Definition inc_code n ps d (k : inc_ty) : M value :=
  let* found := find_char in
  if negb found then let* l := getline in fail (UnexpectedEnd l)
  else
    let* '(line, col) := getpos in
    let* v := parse_value fs li n ps line col d (Some c_gt) true in
    inc_tail k v line col.
Definition whole (r : role) : bool := match r with Whole | Element => true | _ => false end.

Definition okplace (pl : place) : Prop :=
  match pl with
  | InItems ps par _ _ => okf (ps, par)
  | InArr ps _ els => okps ps /\ Forall okv els /\ lub (map get_type els) <> None
  | InTup ps _ els => okps ps /\ Forall okv els
  | ArrFile els => Forall okv els /\ lub (map get_type els) <> None
  | TupFile els => Forall okv els
  | InInc ps _ _ | AtValue _ ps _ _ | AtName _ ps _ _ => okps ps
  | InChain ps _ _ _ terms cur _ => okps ps /\ Forall okv (map (fun t => fst (fst t)) terms) /\ okv cur
  end.
(** At this place, in front of [R], only the error [e] is possible. *)
Definition meets (pl : place) (e : perr) (x : est) (P R : str) : Prop :=
  okplace pl -> forall n s, good P R x s ->
  match pl with
  | InItems ps par d close => mb e (items_code n ps par d close) s
  | InArr ps d els => forall t, lub (map get_type els) = Some t -> mb e (arr_loop fs li n ps d els t (has_any t)) s
  | InTup ps d els => mb e (tup_loop fs li n ps d els) s
  | ArrFile els => forall t, lub (map get_type els) = Some t -> mb e (arr_file_loop fs li n els t (has_any t)) s
  | TupFile els => mb e (tup_file_loop fs li n els) s
  | InInc ps d k => mb e (inc_code n ps d k) s
  | AtValue r ps d close => mb e (parse_value fs li n ps (line_of P) (col_of P) d close (whole r)) s
  | AtName _ ps d close => mb e (parse_variable fs li n ps (line_of P) (col_of P) d close) s
  | InChain ps d close _ terms cur pre => mb e (chain_code n ps d close (chain_vals terms cur pre) (map snd terms)) s
  end.

Ltac gn H := let s1 := fresh "s" in let E := fresh "E" in
  destruct (good_next _ _ _ _ _ H) as [E ?G].
(** *** Primitive steps *)
Lemma mb_peek {C} e c r P x s (f : option char -> M C) : good P (c :: r) x s -> mb e (f (Some c)) s -> mb e (bind peek f) s.
Proof. intros G. apply mb_ok with (s' := s). unfold peek. destruct G as [-> _]. reflexivity. Qed.
Lemma mb_peek_nil {C} e P x s (f : option char -> M C) : good P [] x s -> mb e (f None) s -> mb e (bind peek f) s.
Proof. intros G. apply mb_ok with (s' := s). unfold peek. destruct G as [-> _]. reflexivity. Qed.
Lemma mb_peek_unwrap {C} e c r P x s (f : char -> M C) : good P (c :: r) x s -> mb e (f c) s -> mb e (bind peek_unwrap f) s.
Proof. intros G. apply mb_ok with (s' := s). unfold peek_unwrap, bind, peek. destruct G as [-> _]. reflexivity. Qed.
Lemma mb_next {C} e c r P x s (f : option char -> M C) : good P (c :: r) x s ->
  (forall s', good (P ++ [c]) r x s' -> mb e (f (Some c)) s') -> mb e (bind next f) s.
Proof. intros G H. destruct (good_next _ _ _ _ _ G) as [E G']. eapply mb_ok; [exact E|]. auto. Qed.
Lemma mb_next_unwrap {C} e c r P x s (f : char -> M C) : good P (c :: r) x s ->
  (forall s', good (P ++ [c]) r x s' -> mb e (f c) s') -> mb e (bind next_unwrap f) s.
Proof.
  intros G H. destruct (good_next _ _ _ _ _ G) as [E G']. apply mb_ok with (a := c) (s' := adv1 s c r); auto.
  unfold next_unwrap, bind. rewrite E. reflexivity.
Qed.
Lemma mb_getpos {C} e R P x s (f : N * N -> M C) : good P R x s -> mb e (f (line_of P, col_of P)) s -> mb e (bind getpos f) s.
Proof. intros (_ & _ & _ & _ & L & K) H. eapply mb_ok; [reflexivity|]. rewrite L, K. exact H. Qed.
Lemma mb_getline {C} e R P x s (f : N -> M C) : good P R x s -> mb e (f (line_of P)) s -> mb e (bind getline f) s.
Proof. intros (_ & _ & _ & _ & L & K) H. eapply mb_ok; [reflexivity|]. rewrite L. exact H. Qed.
Lemma mb_assert {C} e b s (f : unit -> M C) : b = true -> mb e (f tt) s -> mb e (bind (assert_ b) f) s.
Proof. intros ->. apply mb_ok. reflexivity. Qed.
Lemma mb_ret {A C} e (a : A) s (f : A -> M C) : mb e (f a) s -> mb e (bind (ret a) f) s.
Proof. apply mb_ok. reflexivity. Qed.
Lemma mb_find {C} e P w c r x s (f : bool -> M C) : ws w -> is_whitespace c = false -> good P (w ++ c :: r) x s ->
  (forall s', good (P ++ w) (c :: r) x s' -> mb e (f true) s') -> mb e (bind find_char f) s.
Proof. intros W Hc G H. destruct (good_find _ _ _ _ _ _ W Hc G) as (s' & E & G'). eapply mb_ok; [exact E|]. auto. Qed.
Lemma mb_find_end {C} e P R x s (f : bool -> M C) : blank R -> good P R x s ->
  (forall s', good (P ++ R) [] x s' -> mb e (f false) s') -> mb e (bind find_char f) s.
Proof. intros B G H. destruct (good_end _ _ _ _ B G) as (s' & E & G'). eapply mb_ok; [exact E|]. auto. Qed.
Lemma mb_failed {A} k P R x s : good P R x s -> mb (mkperr file k) (@fail A k) s.
Proof. intros (_ & _ & F & _). rewrite <- F. apply mb_fail. Qed.

(** *** Scanning *)
Lemma good_scan {A} (f : str -> N -> N -> A * (str * N * N)) P t R x s (a : A) :
  (forall r l k y q, f r l k = (y, q) -> exists con, scanned r l k con q) ->
  good P (t ++ R) x s -> (forall l k, exists l' k', f (t ++ R) l k = (a, (R, l', k'))) ->
  exists s', (let '(y, (r, l, k)) := f (s_rest s) (s_line s) (s_col s) in (Ok y, set_stream s r l k)) = (Ok a, s') /\ good (P ++ t) R x s'.
Proof.
  intros Sc G H. destruct (H (s_line s) (s_col s)) as (l & k & E). pose proof (good_in _ _ _ _ G) as I0.
  pose proof (keeps_scan (P ++ t ++ R) f Sc s I0) as I1. destruct G as (R1 & X & F & K & _).
  rewrite R1, E in *. eexists. split; [reflexivity|]. cbv beta in I1. rewrite R1, E, app_assoc in I1. apply in_good in I1 as [L C]; [|reflexivity].
  unfold good. auto 7.
Qed.
Lemma scan_field_go m R : Forall letter_or_digit m -> forall l k acc, exists l' k',
  scan_field (m ++ R) l k acc false = scan_field R l' k' (acc ++ m) false.
Proof.
  induction 1 as [|c m Hc Hm IH]; intros l k acc; [rewrite app_nil_r; eauto|]. cbn [app scan_field].
  destruct (adv c l k) as [l1 k1]. pose proof (lod_range _ Hc). replace (c =? 58) with false by (symmetry; apply N.eqb_neq; lia).
  cbn [andb]. rewrite (lod_field _ Hc). destruct (IH l1 k1 (acc ++ [c])) as (l' & k' & ->). rewrite <- app_assoc. eauto.
Qed.
Lemma scan_field_first c m R : starts_name c -> Forall letter_or_digit m -> forall l k acc, exists l' k',
  scan_field ((c :: m) ++ R) l k acc true = scan_field R l' k' (acc ++ c :: m) false.
Proof.
  intros Hc Hm l k acc. cbn [app scan_field]. destruct (adv c l k) as [l1 k1]. rewrite andb_false_r.
  assert (V : is_valid_field_char c true = true).
  { destruct Hc as [Hc| ->]; [apply letter_field; auto|reflexivity]. }
  rewrite V. destruct (scan_field_go m R Hm l1 k1 (acc ++ [c])) as (l' & k' & ->). rewrite <- app_assoc. eauto.
Qed.
Lemma scan_var_go m R : Forall letter_or_digit m -> forall l k acc, exists l' k',
  scan_var (m ++ R) l k acc = scan_var R l' k' (acc ++ m).
Proof.
  induction 1 as [|c m Hc Hm IH]; intros l k acc; [rewrite app_nil_r; eauto|]. cbn [app scan_var].
  destruct (adv c l k) as [l1 k1]. pose proof (lod_range _ Hc). replace (c =? 46) with false by (symmetry; apply N.eqb_neq; lia).
  rewrite (lod_not_end _ Hc), (lod_field _ Hc). destruct (IH l1 k1 (acc ++ [c])) as (l' & k' & ->). rewrite <- app_assoc. eauto.
Qed.
Lemma scan_str_go cs R : Forall good_schar cs -> forall l k acc, exists l' k' v,
  scan_str (flat_map schar_text cs ++ R) l k acc false = scan_str R l' k' v false.
Proof.
  induction 1 as [|c cs [Hc1 Hc2] Hm IH]; intros l k acc; [cbn; eauto|]. cbn [flat_map]. rewrite <- app_assoc.
  destruct c as [c|c]; cbn [schar_text app scan_str]; destruct (adv _ l k) as [l1 k1].
  - destruct Hc1 as [Q B]. replace (c =? 34) with false by (symmetry; apply N.eqb_neq; auto).
    replace (c =? 92) with false by (symmetry; apply N.eqb_neq; auto). apply IH.
  - change (92 =? 34) with false. change (92 =? 92) with true. cbv iota. destruct (adv c l1 k1) as [l2 k2].
    rewrite escape_value. destruct (schar_value (SEsc c)); [apply IH|congruence].
Qed.

(** numbers *)
Definition last_under (u : bool) (w : str) : bool := fold_left (fun _ c => c =? c_under) w u.
Lemma dbl_snoc w c : forall u, dbl u (w ++ [c]) = dbl u w || (last_under u w && (c =? c_under)).
Proof.
  induction w as [|d w IH]; intros u.
  - unfold dbl, last_under. destruct u; cbn [app double_under fold_left andb orb]; [|reflexivity].
    change (95 =? 95) with true. cbn [andb]. apply orb_false_r.
  - change (last_under u (d :: w)) with (last_under (d =? 95) w). cbn [app]. destruct (d =? 95) eqn:n.
    + apply N.eqb_eq in n as ->. destruct u; [rewrite !dbl_under_t; reflexivity|]. rewrite !dbl_under_f. apply IH.
    + rewrite !dbl_other by auto. apply IH.
Qed.
Definition points (w : str) : nat := length (filter is_point w).
Lemma scan_num_go w R : Forall (fun c => num_char c = true) w -> forall l k s1 s2 (dec u : bool),
  dbl u w = false -> (points w + (if dec then 1 else 0) <= 1)%nat -> exists l' k' s1' s2',
  scan_numeric (w ++ R) l k s1 s2 dec u = scan_numeric R l' k' s1' s2' (dec || existsb is_point w) (last_under u w) /\
  (digits w = [] -> s1' = s1 /\ s2' = s2).
Proof.
  induction 1 as [|c w Hc Hw IH]; intros l k s1 s2 dec u D Q.
  - exists l, k, s1, s2. cbn. rewrite orb_false_r. auto.
  - cbn [app scan_numeric existsb]. destruct (adv c l k) as [l1 k1].
    rewrite (num_char_not_end _ Hc). unfold points, digits in *. cbn [filter] in *.
    destruct (num_cases c Hc) as [(N & P & X)|[(N & P & X)|(N & P & ->)]]; rewrite N, P; rewrite P in Q; cbn [length] in Q.
    + rewrite dbl_other in D by auto. cbn [orb]. change (last_under u (c :: w)) with (last_under (c =? 95) w). rewrite X.
      destruct dec; cbn [negb].
      * destruct (IH l1 k1 s1 (s2 ++ [c]) true false D Q) as (l' & k' & s1' & s2' & E & _). rewrite E.
        exists l', k', s1', s2'. split; [reflexivity|discriminate].
      * destruct (IH l1 k1 (s1 ++ [c]) s2 false false D Q) as (l' & k' & s1' & s2' & E & _). rewrite E.
        exists l', k', s1', s2'. split; [reflexivity|discriminate].
    + rewrite dbl_other in D by auto. change (last_under u (c :: w)) with (last_under (c =? 95) w). rewrite X.
      destruct dec; [lia|]. unfold is_point in P. rewrite P. cbn [negb orb].
      destruct (IH l1 k1 s1 s2 true false D ltac:(cbn in *; lia)) as (l' & k' & s1' & s2' & E & E2). rewrite E.
      exists l', k', s1', s2'. split; [reflexivity|exact E2].
    + change (is_digit 95) with false. change (is_point 95) with false. cbn [orb].
      change ((95 =? 46) || (95 =? 44)) with false. change (95 =? 95) with true. cbv iota.
      destruct u; [rewrite dbl_under_t in D; discriminate|]. cbn [negb]. rewrite dbl_under_f in D.
      destruct (IH l1 k1 s1 s2 dec true D Q) as (l' & k' & s1' & s2' & E & E2). rewrite E.
      exists l', k', s1', s2'. split; [reflexivity|exact E2].
Qed.
Lemma points_some w : existsb is_point w = negb (Nat.eqb (points w) 0).
Proof. induction w as [|c w IH]; [reflexivity|]. cbn [existsb]. unfold points in *. cbn [filter]. destruct (is_point c); [reflexivity|exact IH]. Qed.
Lemma num_text_all w : num_text w -> Forall (fun c => num_char c = true) w.
Proof. intros (c & r & -> & H1 & _ & H2). constructor; auto. Qed.
Lemma num_ok_snoc w c : num_ok w -> (num_ok (w ++ [c]) <->
  num_char c = true /\ last_under false w && (c =? c_under) = false /\ existsb is_point w && is_point c = false).
Proof.
  intros (T & D & Q). unfold num_ok. pose proof (dbl_snoc w c false) as S. unfold dbl in S. rewrite S, D. cbn [orb].
  rewrite filter_app, app_length. cbn [filter]. rewrite points_some. unfold points in *.
  assert (NT : num_text (w ++ [c]) <-> num_char c = true).
  { destruct T as (c0 & r & -> & H1 & H2 & H3). split.
    - intros (c1 & r1 & E & _ & _ & F). injection E as <- <-. apply Forall_app in F as [_ F]. inversion F; auto.
    - intros H. exists c0, (r ++ [c]). split; [reflexivity|]. split; [auto|]. split; [auto|]. apply Forall_app; auto. }
  rewrite NT. destruct (is_point c); cbn [length]; rewrite ?andb_false_r, ?andb_true_r.
  - destruct (length (filter is_point w)) as [|[|n]]; cbn; intuition lia.
  - intuition lia.
Qed.
Lemma scan_num_bad w c r : num_ok w -> is_value_end_char c = false -> ~ num_ok (w ++ [c]) -> forall l k, exists l' k',
  scan_numeric (w ++ c :: r) l k [] [] false false = (NS_bad c, (c :: r, l', k')).
Proof.
  intros N E B l k. pose proof N as (T & D & Q).
  destruct (scan_num_go w (c :: r) (num_text_all _ T) l k [] [] false false D ltac:(unfold points; lia)) as (l' & k' & s1 & s2 & -> & _).
  exists l', k'. cbn [scan_numeric]. destruct (adv c l' k') as [l2 k2]. rewrite E.
  assert (B2 := B). rewrite (num_ok_snoc w c N) in B2. clear B.
  destruct (num_char c) eqn:Nc.
  2:{ unfold num_char in Nc. rewrite !orb_false_iff in Nc. destruct Nc as [[[-> N1] N2] ->]. rewrite N1, N2. reflexivity. }
  destruct (num_cases c Nc) as [(X & P & Y)|[(X & P & Y)|(X & P & ->)]].
  - exfalso. apply B2. rewrite Y, P, !andb_false_r. auto.
  - rewrite X. unfold is_point in P. rewrite P. cbn [orb]. destruct (existsb is_point w); [reflexivity|].
    exfalso. apply B2. rewrite Y, andb_false_r. auto.
  - change (is_digit 95) with false. change ((95 =? 46) || (95 =? 44)) with false. change (95 =? 95) with true. cbv iota.
    destruct (last_under false w); [reflexivity|]. exfalso. apply B2. change (is_point 95) with false. rewrite andb_false_r. auto.
Qed.
Lemma scan_num_empty w r : num_ok w -> ended r -> digits w = [] -> forall l k, exists l' k' dec,
  scan_numeric (w ++ r) l k [] [] false false = (NS_ok [] [] dec, (r, l', k')).
Proof.
  intros (T & D & Q) E Z l k.
  destruct (scan_num_go w r (num_text_all _ T) l k [] [] false false D ltac:(unfold points; lia)) as (l' & k' & s1 & s2 & -> & X).
  apply X in Z as [-> ->]. destruct (scan_num_end r l' k' [] [] (false || existsb is_point w) (last_under false w) E) as (l2 & k2 & ->). eauto.
Qed.
End Sound.
