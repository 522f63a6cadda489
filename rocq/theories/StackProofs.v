(** * StackProofs: with enough frames the bounded stack is not observable. *)
From Verif Require Export Stack StackSpec Keeps CountProofs.
From Coq Require String.
Import String.StringSyntax.
Open Scope N_scope.

(** Signs and dots before the first separator. *)
Fixpoint run (r : str) : N :=
  match r with
  | [] => 0
  | c :: r' => if separates c then 0 else (if is_link c then 1 else 0) + run r'
  end.
Lemma run_stretch r : exists b c, r = b ++ c /\ forallb (fun x => negb (separates x)) b = true /\ run r = links b.
Proof.
  induction r as [|x r (b & c & -> & F & R)]; [exists [], []; auto|]. cbn [run]. destruct (separates x) eqn:S.
  - exists [], (x :: b ++ c). auto.
  - exists (x :: b), c. split; [reflexivity|]. cbn [forallb]. rewrite S, F. split; [reflexivity|].
    unfold links in *. cbn [filter]. rewrite R. destruct (is_link x); cbn [length]; lia.
Qed.
Lemma run_le w T s : chains_at_most w T -> in_text T s -> run (s_rest s) <= w.
Proof.
  intros C (pre & E & _). destruct (run_stretch (s_rest s)) as (b & c & R & F & ->). apply (C pre b c); auto.
  rewrite E, R. reflexivity.
Qed.

Section S.
Context `{U : Unicode}.
Lemma name_not_separates c b : is_valid_field_char c b = true -> separates c = false.
Proof.
  unfold is_valid_field_char, ch_is_alphabetic, separates, is_digit.
  change (lit "#:()[]{}<>") with [35; 58; 40; 41; 91; 93; 123; 125; 60; 62]. cbn [existsb].
  intros H. apply Bool.not_true_is_false. intros S. apply Bool.orb_true_iff in S as [S|S].
  - destruct ((97 <=? c) && (c <=? 122) || (65 <=? c) && (c <=? 90) || (127 <? c) && u_alpha c && negb (ch_is_whitespace c)) eqn:A.
    + rewrite S, Bool.andb_false_r, Bool.orb_false_r in A. unfold ch_is_whitespace in S.
      repeat (apply Bool.orb_true_iff in S as [S|S] || apply Bool.orb_true_iff in A as [A|A] || apply Bool.andb_true_iff in S as [S ?] || apply Bool.andb_true_iff in A as [A ?]); rewrite ?N.eqb_eq, ?N.leb_le in *; lia.
    + clear A. unfold ch_is_whitespace in S.
      destruct ((48 <=? c) && (c <=? 57)) eqn:D; [|destruct (N.eqb_spec c 95); [|destruct (N.eqb_spec c 94); [|discriminate]]];
      repeat (apply Bool.orb_true_iff in S as [S|S] || apply Bool.andb_true_iff in S as [S ?] || apply Bool.andb_true_iff in D as [D ?]); rewrite ?N.eqb_eq, ?N.leb_le in *; lia.
  -
    assert (L : In c [34; 35; 58; 40; 41; 91; 93; 123; 125; 60; 62]).
    { repeat (apply Bool.orb_true_iff in S as [S|S]; [apply N.eqb_eq in S; subst c; cbn; tauto|]). discriminate. }
    cbn in L. repeat (destruct L as [<-|L]; [vm_compute in H; discriminate|]). exact L.
Qed.
Lemma run_name u r : (forall c, In c u -> separates c = false) -> run r <= run (u ++ r).
Proof.
  induction u as [|c u IH]; intros H; cbn [app run]; [lia|]. rewrite (H c (or_introl eq_refl)).
  specialize (IH (fun x Hx => H x (or_intror Hx))). lia.
Qed.
Lemma scan_var_run : forall r l k v x q, scan_var r l k v = (x, q) ->
  match x with VS_dot _ => run (fst (fst q)) + 1 <= run r | _ => True end.
Proof.
  induction r as [|c r IH]; intros l k v x q E; cbn in E.
  - inversion E; subst. exact I.
  - destruct (adv c l k) as [l' k'] eqn:A. destruct (N.eqb_spec c 46).
    { subst c. inversion E; subst. cbn [fst]. change (run (46 :: r)) with (1 + run r). lia. }
    destruct (is_value_end_char c) eqn:V; [inversion E; subst; exact I|].
    destruct (is_valid_field_char c false) eqn:N.
    + apply IH in E. destruct x; auto. apply (name_not_separates c false) in N. cbn [run]. rewrite N. lia.
    + inversion E; subst. exact I.
Qed.

(** ** Two runs: the stack machine and the metered parser *)
Lemma frame_S {A} (b : N -> M A) st : 1 <= st -> frame st b = b (st - 1).
Proof. unfold frame. intros H. destruct (N.eqb_spec st 0); [lia|reflexivity]. Qed.
Section Two.
(** frames for types *)
Variable Tl : N.
Definition sm {A} (m : M A) (c : Mt A) (s : pstate) : Prop := m_tall (snd (c s)) <= Tl -> m s = fst (c s).
Lemma sm_lift {A} (m : M A) s : sm m (lift m) s.
Proof. intros _. reflexivity. Qed.
Lemma sm_tick {A} (m : M A) c s : sm m c s -> sm m (tick c) s.
Proof. unfold sm, tick. destruct (c s) as [r u]. cbn [snd fst m_add m_tall]. intros H L. apply H. lia. Qed.
Lemma sm_bind' {A B} (m : M A) c (f : A -> M B) f' s : sm m c s ->
  (forall a s', fst (c s) = (Ok a, s') -> sm (f a) (f' a) s') -> sm (bind m f) (cbind c f') s.
Proof.
  unfold sm, bind, cbind. intros H F. destruct (c s) as [[[a|e| |] q] u]; cbn [fst snd] in *; intros L; try (rewrite (H L); reflexivity).
  specialize (F a q eq_refl). destruct (f' a q) as [r u']. cbn [fst snd m_add m_tall] in *. rewrite H by lia. apply F. lia.
Qed.
Lemma sm_spare {B} st n (f : unit -> M B) f' s : Tl <= st -> sm (f tt) (f' tt) s -> sm (bind (spare st n) f) (cbind (c_spare n) f') s.
Proof.
  unfold sm, bind, cbind, c_spare, spare. intros E H. destruct (f' tt s) as [r u]. cbn [fst snd m_add m_tall] in *. intros L.
  destruct (N.leb_spec n st); [|lia]. apply H. lia.
Qed.
Section Text.
Variable T : str.
Definition keepc {A} (c : Mt A) : Prop := forall s, in_text T s -> match c s with (Ok _, q, _) => in_text T q | _ => True end.
Lemma keepc_er {A} (c : Mt A) m : er c m -> keeps T m -> keepc c.
Proof. intros E K s I. specialize (E s). specialize (K s I). destruct (c s) as [[[a|e| |] q] u]; auto. cbn in E. rewrite <- E in K. exact K. Qed.
Lemma keepc_lift {A} (m : M A) : keeps T m -> keepc (lift m).
Proof. intros. eapply keepc_er; [apply er_lift|assumption]. Qed.
Lemma keepc_bind {A B} (c : Mt A) (f : A -> Mt B) : keepc c -> (forall a, keepc (f a)) -> keepc (cbind c f).
Proof.
  intros K F s I. specialize (K s I). unfold cbind. destruct (c s) as [[[a|e| |] q] u]; auto. specialize (F a q K).
  destruct (f a q) as [[[b|e| |] q'] u']; auto.
Qed.
Lemma keepc_spare n : keepc (c_spare n).
Proof. intros s I. exact I. Qed.
Lemma sm_bind {A B} (m : M A) c (f : A -> M B) f' s : in_text T s -> keepc c -> sm m c s ->
  (forall a s', fst (c s) = (Ok a, s') -> in_text T s' -> sm (f a) (f' a) s') -> sm (bind m f) (cbind c f') s.
Proof.
  intros I K H F. apply sm_bind'; auto. intros a q E. apply F; auto. specialize (K s I). destruct (c s) as [[o q'] u]. cbn [fst] in E. inversion E; subst. exact K.
Qed.
Lemma sm_bind0 {A B} (m : M A) (f : A -> M B) f' s : in_text T s -> keeps T m ->
  (forall a s', m s = (Ok a, s') -> in_text T s' -> sm (f a) (f' a) s') -> sm (bind m f) (cbind (lift m) f') s.
Proof. intros I K F. apply sm_bind; [exact I|apply keepc_lift, K|apply sm_lift|exact F]. Qed.
End Text.

Lemma sm_unary st v op l k s : Tl <= st -> sm (st_unary_op_on_value st v op l k) (c_unary_op_on_value v op l k) s.
Proof. intros. apply sm_spare; auto. apply sm_lift. Qed.
Lemma sm_binop st v w op l k s : Tl <= st -> sm (st_binary_op_on_values st v w op l k) (c_binary_op_on_values v w op l k) s.
Proof. intros. apply sm_spare; auto. apply sm_spare; auto. apply sm_lift. Qed.
Lemma sm_token st v l k s : Tl <= st -> sm (st_include_token st v l k) (c_include_token v l k) s.
Proof. intros. apply sm_spare; auto. apply sm_lift. Qed.
Lemma sm_index st g v l k s : Tl <= st -> sm (st_index_by st g v l k) (c_index_by g v l k) s.
Proof. intros. apply sm_spare; auto. apply sm_lift. Qed.
Lemma sm_tup st vs s : Tl <= st -> sm (st_new_tup st vs) (c_new_tup vs) s.
Proof. intros. apply sm_spare; auto. apply sm_lift. Qed.
Lemma sm_low st ops : Tl <= st -> forall v vals s, sm (st_eval_low_ops st v vals ops) (ct_eval_low_ops v vals ops) s.
Proof.
  intros L. induction ops as [|op ops IH]; intros v vals s; [destruct vals; apply sm_lift|].
  destruct vals as [|[[v2 l2] c2] vals]; [exact (sm_tick _ _ _ (sm_lift (@panic value) s))|].
  exact (sm_tick _ _ _ (sm_bind' _ _ _ _ _ (sm_binop st v v2 op l2 c2 s L) (fun x q _ => IH x vals q))).
Qed.

Lemma finish_sm fs (lis : N -> inc_ty -> str -> shared -> outcome value * shared) lic (E : N) st ty f l k s :
  (forall st ty p sh, E <= st -> m_tall (snd (lic ty p sh)) <= Tl -> lis st ty p sh = fst (lic ty p sh)) -> E <= st ->
  sm (finish_include fs (lis st) ty f l k) (ct_finish_include fs lic ty f l k) s.
Proof.
  intros Hli L. assert (G : forall p s, sm (run_include (lis st) ty p) (ct_run_include lic ty p) s).
  { intros p q. unfold sm, run_include, ct_run_include. specialize (Hli st ty p (s_sh q) L). destruct (lic ty p (s_sh q)) as [[o sh] u].
    cbn [fst snd] in *. intros Q. rewrite (Hli Q). reflexivity. }
  unfold finish_include, ct_finish_include.
  repeat match goal with
  | |- sm (bind _ _) (cbind _ _) _ => apply sm_bind'; [|intros]
  | |- sm (if ?b then _ else _) _ _ => destruct b
  | |- sm (match ?x with _ => _ end) _ _ => destruct x
  | |- sm (run_include _ _ _) _ _ => apply G
  | |- sm (let _ := _ in _) _ _ => cbv zeta
  | |- _ => apply sm_lift
  end.
Qed.
Lemma finish_no_files fs li lic ty f l k s : (forall p, canon fs p = None) ->
  sm (finish_include fs li ty f l k) (ct_finish_include fs lic ty f l k) s.
Proof.
  intros C. unfold finish_include, ct_finish_include. apply sm_bind'; [apply sm_lift|intros]. apply sm_bind'; [apply sm_lift|intros].
  cbv zeta. rewrite C. destruct (negb _); apply sm_lift.
Qed.
End Two.

(** ** The need for frames *)
Section Need.
Variable fs : fsys.
Variable lis : N -> inc_ty -> str -> shared -> outcome value * shared.
Variable lic : inc_ty -> str -> shared -> (outcome value * shared) * meter.
(** frames kept for types; for types and the included files *)
Variable Tl E : N.
Hypothesis HE : Tl <= E.
Hypothesis HF : forall st ty f l k s, E <= st -> sm Tl (finish_include fs (lis st) ty f l k) (ct_finish_include fs lic ty f l k) s.
Variable T : str.
Variable w : N.
Hypothesis HT : chains_at_most w T.

(** What the values at nesting [d] in the text [r] can need, beyond the two frames of the innermost one. *)
Definition need (d : N) (r : str) : N := if d <=? 64 then 4 * (65 - d) + 2 * w else 2 * run r.
Lemma need_low d r : d <= 64 -> need d r = 4 * (65 - d) + 2 * w.
Proof. unfold need. intros H. destruct (N.leb_spec d 64); [reflexivity|lia]. Qed.
Lemma need_high d r : 64 < d -> need d r = 2 * run r.
Proof. unfold need. intros H. destruct (N.leb_spec d 64); [lia|reflexivity]. Qed.
Lemma need_down d s s' : in_text T s' -> run (s_rest s') + 1 <= run (s_rest s) \/ d <= 64 ->
  need (d + 1) (s_rest s') + 2 <= need d (s_rest s).
Proof.
  intros I H. pose proof (run_le w T s' HT I) as R. unfold need.
  destruct (N.leb_spec (d + 1) 64), (N.leb_spec d 64); lia.
Qed.

Definition first_ok (first : bool) (d : N) : Prop := first = true -> d <= 64.
Definition same {A} (m : M A) (c : Mt A) (q : str -> Prop) : Prop := forall s, in_text T s -> q (s_rest s) -> sm Tl m c s.

Definition ST (n : nat) : Prop :=
  (forall st ps l k d br first, first_ok first d ->
     same (st_parse_value fs lis n st ps l k d br first) (ct_parse_value fs lic n ps l k d br first) (fun r => need d r + (if first then 3 else 2) + E <= st)) /\
  (forall st ps d br vals ops, d <= 64 ->
     same (st_parse_ops fs lis n st ps d br vals ops) (ct_parse_ops fs lic n ps d br vals ops) (fun r => need d r + 2 + E <= st)) /\
  (forall st ps d br op,
     same (st_parse_unary_op fs lis n st ps d br op) (ct_parse_unary_op fs lic n ps d br op) (fun r => need d r + 1 + E <= st)) /\
  (forall st d, 
     same (st_parse_obj fs lis n st d) (ct_parse_obj fs lic n d) (fun r => 1 <= st /\ (d <= 64 -> need d r + 5 + E <= st))) /\
  (forall st ps par d br, d <= 64 ->
     same (st_pairs_loop fs lis n st ps par d br) (ct_pairs_loop fs lic n ps par d br) (fun r => need d r + 4 + E <= st)) /\
  (forall st ps par d br, d <= 64 ->
     same (st_parse_field_value_pair fs lis n st ps par d br) (ct_parse_field_value_pair fs lic n ps par d br) (fun r => need d r + 4 + E <= st)) /\
  (forall st ps d, 
     same (st_parse_arr fs lis n st ps d) (ct_parse_arr fs lic n ps d) (fun r => 1 <= st /\ (d <= 64 -> need d r + 4 + E <= st))) /\
  (forall st ps d vs t any, d <= 64 ->
     same (st_arr_loop fs lis n st ps d vs t any) (ct_arr_loop fs lic n ps d vs t any) (fun r => need d r + 3 + E <= st)) /\
  (forall st ps d, 
     same (st_parse_tup fs lis n st ps d) (ct_parse_tup fs lic n ps d) (fun r => 1 <= st /\ (d <= 64 -> need d r + 4 + E <= st))) /\
  (forall st ps d vs, d <= 64 ->
     same (st_tup_loop fs lis n st ps d vs) (ct_tup_loop fs lic n ps d vs) (fun r => need d r + 3 + E <= st)) /\
  (forall st ps l k d br,
     same (st_parse_variable fs lis n st ps l k d br) (ct_parse_variable fs lic n ps l k d br) (fun r => need d r + 1 + E <= st)) /\
  (forall st ps d, 
     same (st_parse_include fs lis n st ps d) (ct_parse_include fs lic n ps d) (fun r => 1 <= st /\ (d <= 64 -> need d r + 4 + E <= st))).

Definition li : inc_ty -> str -> shared -> outcome value * shared := fun ty p sh => fst (lic ty p sh).
Definition KC (n : nat) : Prop :=
  (forall a b c d e f, keepc T (ct_parse_value fs lic n a b c d e f)) /\
  (forall a b c d e, keepc T (ct_parse_ops fs lic n a b c d e)) /\
  (forall a b c d, keepc T (ct_parse_unary_op fs lic n a b c d)) /\
  (forall a, keepc T (ct_parse_obj fs lic n a)) /\
  (forall a b c d, keepc T (ct_pairs_loop fs lic n a b c d)) /\
  (forall a b c d, keepc T (ct_parse_field_value_pair fs lic n a b c d)) /\
  (forall a b, keepc T (ct_parse_arr fs lic n a b)) /\
  (forall a b c d e, keepc T (ct_arr_loop fs lic n a b c d e)) /\
  (forall a b, keepc T (ct_parse_tup fs lic n a b)) /\
  (forall a b c, keepc T (ct_tup_loop fs lic n a b c)) /\
  (forall a b c d e, keepc T (ct_parse_variable fs lic n a b c d e)) /\
  (forall a b, keepc T (ct_parse_include fs lic n a b)).
Lemma KC_all n : KC n.
Proof.
  destruct (KT_all T fs li n) as (K1&K2&K3&K4&K5&K6&K7&K8&K9&K10&K11&K12).
  destruct (ER_all fs lic li (fun _ _ _ => eq_refl) n) as (E1&E2&E3&E4&E5&E6&E7&E8&E9&E10&E11&E12).
  unfold KC. repeat match goal with |- _ /\ _ => split end; intros; eapply keepc_er; auto.
Qed.

Ltac ksame := apply keeps_same; let s := fresh "s" in intros s; cbn; auto.
Ltac kk1 n :=
  match goal with
  | |- keeps _ (bind _ _) => apply keeps_bind; [|intros]
  | |- keeps _ (if ?b then _ else _) => destruct b
  | |- keeps _ (match ?x with _ => _ end) => destruct x
  | |- keeps _ (let _ := _ in _) => cbv zeta
  | |- keeps _ (ret _) => apply keeps_ret
  | |- keeps _ (fail _) => apply keeps_err; intros ?; exact I
  | |- keeps _ (raise _) => apply keeps_err; intros ?; exact I
  | |- keeps _ panic => apply keeps_err; intros ?; exact I
  | |- keeps _ next => apply keeps_next
  | |- keeps _ find_char => apply keeps_find
  | |- keeps _ gen_id => apply keeps_gen
  | |- keeps _ col_minus_1 => unfold col_minus_1; let s := fresh in let I := fresh in intros s I; destruct (s_col s =? 0); [exact Logic.I|exact I]
  | |- keeps _ peek => ksame
  | |- keeps _ getline => ksame
  | |- keeps _ getpos => ksame
  | |- keeps _ getfile => ksame
  | |- keeps _ get_globals => ksame
  | |- keeps _ (insert_global _ _) => ksame
  | |- keeps _ (unwrap _) => unfold unwrap
  | |- keeps _ (unwrap_o _) => unfold unwrap_o
  | |- keeps _ (assert_ _) => unfold assert_
  | |- keeps _ peek_unwrap => unfold peek_unwrap
  | |- keeps _ next_unwrap => unfold next_unwrap
  | |- keeps _ (new_obj _ _) => unfold new_obj
  | |- keeps _ (new_arr _ _) => unfold new_arr
  | |- keeps _ (new_tup _) => unfold new_tup
  | |- keeps _ (check_value_end _) => unfold check_value_end
  | |- keeps _ (parse_field _ _) => apply keeps_field
  | |- keeps _ parse_str => apply keeps_str
  | |- keeps _ (parse_numeric _ _) => apply keeps_numeric
  | |- keeps _ (unary_op_on_value _ _ _ _) => apply keeps_unary
  | |- keeps _ (binary_op_on_values _ _ _ _ _) => apply keeps_binop
  | |- keeps _ (include_token _ _ _) => apply keeps_token
  | |- keeps _ (lookup_variable _ _ _ _ _) => apply keeps_lookup
  | |- keeps _ (fun s => let '(x, q) := scan_var _ _ _ ?v in _) =>
      apply (keeps_scan T (fun r l k => scan_var r l k v)); let E := fresh in intros ? ? ? ? ? E; apply scan_var_spec in E as (? & E & _); eauto
  end.
Ltac kc1 n :=
  match goal with
  | |- keepc _ (lift _) => apply keepc_lift; repeat kk1 n
  | |- keepc _ (c_spare _) => apply keepc_spare
  | |- keepc _ (cbind _ _) => apply keepc_bind; [|intros]
  | |- keepc _ (c_new_tup _) => unfold c_new_tup
  | |- keepc _ (c_include_token _ _ _) => unfold c_include_token
  | |- keepc _ (c_index_by _ _ _ _) => unfold c_index_by
  | |- keepc _ (c_unary_op_on_value _ _ _ _) => unfold c_unary_op_on_value
  | |- keepc _ (c_binary_op_on_values _ _ _ _ _) => unfold c_binary_op_on_values
  | |- keepc _ (if ?b then _ else _) => destruct b
  | |- keepc _ (match ?x with _ => _ end) => destruct x
  | _ => let K := fresh in pose proof (KC_all n) as K; unfold KC in K; decompose [and] K; match goal with H : _ |- _ => apply H end
  end.
Ltac kcs n := repeat kc1 n.
Ltac kks n := repeat kk1 n.
Ltac unl := unfold c_peek_unwrap, c_next_unwrap, c_peek, c_next, c_find_char, c_getpos, c_getline, c_getfile, c_col_minus_1, c_get_globals, c_get_sh, c_panic, c_nofuel, c_parse_str,
  c_ret, c_fail, c_raise, c_assert_, c_insert_global, c_put_sh, c_check_value_end, c_new_obj, c_new_arr, c_parse_numeric, c_parse_field, c_lookup_variable.
Ltac go n :=
  repeat match goal with
  | |- sm _ ?m (lift ?m) _ => apply sm_lift
  | |- sm _ (bind (spare _ _) _) _ _ => apply sm_spare; [lia|]
  | |- sm _ (bind ?m _) (cbind (lift ?m) _) _ => apply (sm_bind0 Tl T); [assumption|kks n|let a := fresh "a" in let q := fresh "q" in let J := fresh "J" in intros a q J ?]
  | |- sm _ (bind _ _) (cbind _ _) _ => apply (sm_bind Tl T); [assumption|kcs n| |let a := fresh "a" in let q := fresh "q" in let J := fresh "J" in intros a q J ?]
  | |- sm _ (st_unary_op_on_value _ _ _ _ _) _ _ => apply sm_unary; lia
  | |- sm _ (st_binary_op_on_values _ _ _ _ _ _) _ _ => apply sm_binop; lia
  | |- sm _ (st_include_token _ _ _ _) _ _ => apply sm_token; lia
  | |- sm _ (st_index_by _ _ _ _ _) _ _ => apply sm_index; lia
  | |- sm _ (st_new_tup _ _) _ _ => apply sm_tup; lia
  | |- sm _ (st_eval_low_ops _ _ _ _) _ _ => apply sm_low; lia
  | |- sm _ (if ?b then _ else _) _ _ => let D := fresh "D" in destruct b eqn:D
  | |- sm _ (match ?x with _ => _ end) _ _ => let D := fresh "D" in destruct x eqn:D
  end.

(** steps that leave the stream where it is *)
Definition still {A} (m : M A) : Prop := forall s a q, m s = (Ok a, q) -> s_rest q = s_rest s.
Lemma still_bind {A B} (m : M A) (f : A -> M B) : still m -> (forall a, still (f a)) -> still (bind m f).
Proof. intros Hm Hf s a q. unfold bind. destruct (m s) as [[x|e| |] s'] eqn:Q; try discriminate. intros K. rewrite (Hf _ _ _ _ K). exact (Hm _ _ _ Q). Qed.
Lemma still_ret {A} (a : A) : still (ret a).
Proof. intros s x q K. inversion K; subst. reflexivity. Qed.
Lemma still_no {A} (m : M A) : (forall s, match m s with (Ok _, _) => False | _ => True end) -> still m.
Proof. intros K s a q Q. specialize (K s). rewrite Q in K. destruct K. Qed.
Lemma still_sentinel k : still (sentinel k).
Proof. intros s a q. unfold sentinel. destruct (g_sent _ _); intros K; inversion K; subst; reflexivity. Qed.
Ltac st1 :=
  match goal with
  | |- still (bind _ _) => apply still_bind; [|intros]
  | |- still (if ?b then _ else _) => destruct b
  | |- still (match ?x with _ => _ end) => destruct x
  | |- still (let _ := _ in _) => cbv zeta
  | |- still (ret _) => apply still_ret
  | |- still (fail _) => apply still_no; intros ?; exact I
  | |- still panic => apply still_no; intros ?; exact I
  | |- still (sentinel _) => apply still_sentinel
  | |- still peek => let K := fresh in intros ? ? ? K; unfold peek in K; injection K as _ K; rewrite K; reflexivity
  | |- still getpos => let K := fresh in intros ? ? ? K; inversion K; subst; reflexivity
  | |- still getline => let K := fresh in intros ? ? ? K; inversion K; subst; reflexivity
  | |- still get_globals => let K := fresh in intros ? ? ? K; inversion K; subst; reflexivity
  | |- still (unwrap _) => unfold unwrap
  | |- still (assert_ _) => unfold assert_
  | |- still peek_unwrap => unfold peek_unwrap
  | |- still (lookup_variable _ _ _ _ _) => unfold lookup_variable
  end.
Lemma still_getpos : still getpos. Proof. repeat st1. Qed.
Lemma still_peek : still peek. Proof. repeat st1. Qed.
Lemma still_peek_unwrap : still peek_unwrap. Proof. repeat st1. Qed.
Lemma still_assert b : still (assert_ b). Proof. repeat st1. Qed.
Lemma still_lookup a b c d e : still (lookup_variable a b c d e). Proof. repeat st1. Qed.
Definition stillc {A} (c : Mt A) : Prop := forall s a q, fst (c s) = (Ok a, q) -> s_rest q = s_rest s.
Lemma stillc_lift {A} (m : M A) : still m -> stillc (lift m).
Proof. intros H s a q. apply H. Qed.
Lemma stillc_bind {A B} (c : Mt A) (f : A -> Mt B) : stillc c -> (forall a, stillc (f a)) -> stillc (cbind c f).
Proof.
  intros Hc Hf s b q. unfold cbind. specialize (Hc s). destruct (c s) as [[[x|e| |] s'] u]; try discriminate. specialize (Hc x s' eq_refl).
  specialize (Hf x s' b q). destruct (f x s') as [r u']. cbn [fst] in *. intros K. rewrite (Hf K). exact Hc.
Qed.
Lemma next_run s a q : next s = (Ok a, q) -> run (s_rest q) + (match a with Some c => if is_link c then 1 else 0 | None => 0 end) <= run (s_rest s) \/
  exists c, a = Some c /\ separates c = true.
Proof.
  unfold next. destruct (s_rest s) as [|c r] eqn:R.
  - intros K; inversion K; subst. rewrite R. left. cbn. lia.
  - destruct (adv c (s_line s) (s_col s)). intros K; inversion K; subst. cbn [run s_rest set_stream].
    destruct (separates c) eqn:S; [right; eauto|left]. lia.
Qed.

Ltac nl := repeat match goal with
  | H : ?d <= 64 |- _ => progress (repeat rewrite (need_low d) in * by exact H)
  end.
Lemma ST_all n : ST n.
Proof.
  induction n as [|n (H1&H2&H3&H4&H5&H6&H7&H8&H9&H10&H11&H12)]; [unfold ST; repeat match goal with |- _ /\ _ => split end; intros; intros ? ? ?; apply sm_lift|].
  assert (SubD : forall d s st q, in_text T q -> s_rest q = s_rest s -> need d (s_rest s) + 2 + E <= st ->
    1 <= st - 1 /\ (d + 1 <= 64 -> need (d + 1) (s_rest q) + 5 + E <= st - 1)).
  { intros d s st q I R L. split; [lia|]. intros D. rewrite (need_low (d + 1)) by lia. rewrite (need_low d) in L by lia. lia. }
  unfold ST.
  split.
  { intros st ps l k d br first FO s I L. cbv beta in L. rewrite st_parse_value_S, ct_parse_value_S, frame_S by (destruct first; lia); apply sm_tick; unl.
    apply (sm_bind0 Tl T); [assumption|kks n|]. intros ch q J I2. apply still_peek_unwrap in J.
    apply (sm_bind Tl T); [assumption|kcs n| |].
    - assert (L' : need d (s_rest s) + 2 + E <= st) by (destruct first; lia). pose proof (SubD d s st q I2 J L') as SB. rewrite <- J in L'. go n.
      + apply H4; auto.
      + apply H7; auto. split; [apply SB|]. intros D'. apply SB in D'. lia.
      + apply H9; auto. split; [apply SB|]. intros D'. apply SB in D'. lia.
      + apply H12; auto. split; [apply SB|]. intros D'. apply SB in D'. lia.
      + apply H3; auto. cbv beta. lia.
      + apply H3; auto. cbv beta. lia.
      + apply H11; auto. cbv beta. lia.
    - clear J. intros res q2 J I3. destruct first; [|go n]. specialize (FO eq_refl). nl. go n.
      apply H2; auto. cbv beta. nl. lia. }
  split.
  { intros st ps d br vals ops D s I L. nl. rewrite st_parse_ops_S, ct_parse_ops_S; apply sm_tick; unl. go n.
    - apply H1; [discriminate|assumption|cbv beta; nl; lia].
    - apply H2; auto. cbv beta. nl. lia.
    - apply H2; auto. cbv beta. nl. lia. }
  split.
  { intros st ps d br op s I L. cbv beta in L. rewrite st_parse_unary_op_S, ct_parse_unary_op_S, frame_S by lia; apply sm_tick; unl.
    apply (sm_bind0 Tl T); [assumption|kks n|]. intros nx q1 J1 I1.
    apply (sm_bind0 Tl T); [assumption|kks n|]. intros u q2 J2 I2.
    assert (A : exists c, nx = Some c /\ (c = c_minus \/ c = c_plus)).
    { destruct op, nx as [c|]; cbn in J2; try discriminate; match type of J2 with assert_ ?b _ = _ => destruct b eqn:B; [|discriminate] end;
      apply N.eqb_eq in B; subst c; eauto. }
    apply still_assert in J2.
    apply (sm_bind0 Tl T); [assumption|kks n|]. intros [ln cl] q3 J3 I3. apply still_getpos in J3.
    apply (sm_bind0 Tl T); [assumption|kks n|]. intros o q4 J4 I4. apply still_peek in J4.
    destruct o as [o|]; [|go n].
    apply (sm_bind Tl T); [assumption|kcs n| |intros; go n].
    apply H1; [discriminate|assumption|].
    assert (R : run (s_rest q4) + 1 <= run (s_rest s)).
    { rewrite J4, J3, J2. destruct A as (c & -> & A). destruct (next_run _ _ _ J1) as [A'|(c' & A1 & A2)].
      - destruct A; subst c; exact A'.
      - inversion A1; subst c'. destruct A; subst c; discriminate A2. }
    cbv beta. pose proof (need_down d s q4 I4 (or_introl R)). lia. }
  split.
  { intros st d s I [L1 L]. rewrite st_parse_obj_S, ct_parse_obj_S, frame_S by lia; apply sm_tick; unl. unfold MAX_DEPTH.
    destruct (N.ltb_spec 64 d) as [D|D]; [go n|]. specialize (L D). nl. go n. apply H5; auto. cbv beta. nl. lia. }
  split.
  { intros st ps par d br D s I L. nl. rewrite st_pairs_loop_S, ct_pairs_loop_S; apply sm_tick; unl. go n.
    - apply H6; auto. cbv beta. nl. lia.
    - apply H5; auto. cbv beta. nl. lia. }
  split.
  { intros st ps par d br D s I L. nl. rewrite st_parse_field_value_pair_S, ct_parse_field_value_pair_S, frame_S by lia; apply sm_tick; unl. go n.
    apply H1; [intros _; exact D|assumption|cbv beta; nl; lia]. }
  split.
  { intros st ps d s I [L1 L]. rewrite st_parse_arr_S, ct_parse_arr_S, frame_S by lia; apply sm_tick; unl. unfold MAX_DEPTH.
    destruct (N.ltb_spec 64 d) as [D|D]; [go n|]. specialize (L D). nl. go n. apply H8; auto. cbv beta. nl. lia. }
  split.
  { intros st ps d vs t any D s I L. nl. rewrite st_arr_loop_S, ct_arr_loop_S; apply sm_tick; unl. go n.
    - apply H1; [intros _; exact D|assumption|cbv beta; nl; lia].
    - apply H8; auto. cbv beta. nl. lia. }
  split.
  { intros st ps d s I [L1 L]. rewrite st_parse_tup_S, ct_parse_tup_S, frame_S by lia; apply sm_tick; unl. unfold MAX_DEPTH.
    destruct (N.ltb_spec 64 d) as [D|D]; [go n|]. specialize (L D). nl. go n. apply H10; auto. cbv beta. nl. lia. }
  split.
  { intros st ps d vs D s I L. nl. rewrite st_tup_loop_S, ct_tup_loop_S; apply sm_tick; unl. go n.
    - apply H1; [intros _; exact D|assumption|cbv beta; nl; lia].
    - apply H10; auto. cbv beta. nl. lia. }
  split.
  { intros st ps l k d br s I L. cbv beta in L. rewrite st_parse_variable_S, ct_parse_variable_S, frame_S by lia; apply sm_tick; unl. cbv zeta.
    apply (sm_bind0 Tl T); [assumption|kks n|]. intros ch q1 J1 I1. pose proof (f_equal (fun _ => tt) J1) as _.
    assert (C1 : exists r, s_rest q1 = ch :: r /\ s_rest q1 = s_rest s).
    { unfold peek_unwrap, bind, peek in J1. destruct (s_rest s) eqn:R; inversion J1; subst. rewrite R. eauto. }
    destruct C1 as (r & C1 & C2).
    apply (sm_bind Tl T); [assumption|kcs n|go n|]. intros v0 q2 J2 I2.
    assert (R2 : run (s_rest q2) <= run (s_rest s)).
    { rewrite <- C2. destruct (N.eqb_spec ch c_at); [|inversion J2; subst; lia].
      unfold cbind, lift, next_unwrap, bind, next in J2. rewrite C1 in J2. destruct (adv _ _ _). cbn in J2. inversion J2; subst. rewrite C1. cbn. lia. }
    apply (sm_bind0 Tl T); [assumption|kks n|]. intros x q3 J3 I3.
    assert (R3 : match x with VS_dot _ => run (s_rest q3) + 1 <= run (s_rest s) | _ => True end).
    { destruct (scan_var _ _ _ _) as [y [[r' l'] k']] eqn:S. inversion J3; subst. apply scan_var_run in S. cbn [fst] in S.
      destruct x; auto. cbn. lia. }
    apply (sm_bind Tl T); [assumption|kcs n|go n|]. intros [[var dot] dg] q4 J4 I4.
    assert (R4 : dot = true -> run (s_rest q4) + 1 <= run (s_rest s)).
    { intros ->. destruct x; [inversion J4| |].
      - replace (s_rest q4) with (s_rest q3); [exact R3|]. symmetry. revert J4. generalize (v, true, dg).
        intros z J4. refine ((_ : stillc _) _ _ _ J4).
        repeat match goal with
        | |- stillc (cbind _ _) => apply stillc_bind; [|intros]
        | |- stillc (if ?b then _ else _) => destruct b
        | |- stillc (match ?x with _ => _ end) => destruct x
        | |- stillc (lift _) => apply stillc_lift; repeat st1
        end.
      - exfalso. unfold cbind, lift in J4. cbn in J4. discriminate. }
    apply (sm_bind0 Tl T); [assumption|kks n|]. intros val q5 J5 I5. apply still_lookup in J5.
    destruct dot; [|go n]. specialize (R4 eq_refl). rewrite <- J5 in R4.
    assert (ND : forall q, in_text T q -> s_rest q = s_rest q5 -> need (d + 1) (s_rest q) + 2 <= need d (s_rest s)).
    { intros q Iq Rq. apply need_down; auto. left. rewrite Rq. exact R4. }
    destruct val; try solve [go n].
    - apply (sm_bind0 Tl T); [assumption|kks n|]. intros [ln cl] q6 J6 I6. apply still_getpos in J6. specialize (ND q6 I6 J6).
      apply (sm_bind Tl T); [assumption|kcs n| |intros; go n]. apply H1; [discriminate|assumption|cbv beta; lia].
    - apply (sm_bind0 Tl T); [assumption|kks n|]. intros [ln cl] q6 J6 I6. apply still_getpos in J6. specialize (ND q6 I6 J6).
      apply (sm_bind Tl T); [assumption|kcs n| |intros; go n]. apply H1; [discriminate|assumption|cbv beta; lia].
    - apply (sm_bind0 Tl T); [assumption|kks n|]. intros [ln cl] q6 J6 I6. apply still_getpos in J6. specialize (ND q6 I6 J6).
      destruct dg; [go n|]. apply H11; auto. cbv beta. lia. }
  intros st ps d s I [L1 L]. rewrite st_parse_include_S, ct_parse_include_S, frame_S by lia; apply sm_tick; unl. unfold MAX_DEPTH.
  destruct (N.ltb_spec 64 d) as [D|D]; [go n|]. specialize (L D). nl. go n.
  - apply H1; [intros _; exact D|assumption|cbv beta; nl; lia].
  - apply H1; [intros _; exact D|assumption|cbv beta; nl; lia].
  - apply HF. lia.
Qed.

Lemma obj_stream_sm n st s : in_text T s -> 261 + 2 * w + E <= st ->
  sm Tl (st_parse_obj_stream fs lis n st) (ct_parse_obj_stream fs lic n) s.
Proof.
  intros I L. unfold st_parse_obj_stream. rewrite frame_S by lia. unfold ct_parse_obj_stream. apply sm_tick. unl. go n.
  destruct (ST_all n) as (_&_&_&_&HH&_). apply HH; [lia|assumption|]. cbv beta. rewrite need_low by lia. lia.
Qed.
Lemma arr_loop_sm n st : 259 + 2 * w + E <= st -> forall vs t any s, in_text T s ->
  sm Tl (st_arr_file_loop fs lis n st vs t any) (ct_arr_file_loop fs lic n vs t any) s.
Proof.
  intros L. induction n as [|n IH]; intros vs t any s I; [apply sm_lift|]. rewrite ct_arr_file_loop_S. cbn [st_arr_file_loop]. apply sm_tick. unl. go n.
  - destruct (ST_all n) as (HH&_). apply HH; [unfold first_ok; lia|assumption|]. cbv beta. rewrite need_low by lia. lia.
  - apply IH; auto.
Qed.
Lemma tup_loop_sm n st : 259 + 2 * w + E <= st -> forall vs s, in_text T s ->
  sm Tl (st_tup_file_loop fs lis n st vs) (ct_tup_file_loop fs lic n vs) s.
Proof.
  intros L. induction n as [|n IH]; intros vs s I; [apply sm_lift|]. rewrite ct_tup_file_loop_S. cbn [st_tup_file_loop]. apply sm_tick. unl. go n.
  - destruct (ST_all n) as (HH&_). apply HH; [unfold first_ok; lia|assumption|]. cbv beta. rewrite need_low by lia. lia.
  - apply IH; auto.
Qed.
Lemma arr_stream_sm n st s : in_text T s -> 259 + 2 * w + E <= st ->
  sm Tl (st_parse_arr_stream fs lis n st) (ct_parse_arr_stream fs lic n) s.
Proof.
  intros I L. unfold st_parse_arr_stream, ct_parse_arr_stream. apply sm_bind'; [apply arr_loop_sm; auto|]. intros [vs t] q J. apply sm_lift.
Qed.
Lemma tup_stream_sm n st s : in_text T s -> 259 + 2 * w + E <= st ->
  sm Tl (st_parse_tup_stream fs lis n st) (ct_parse_tup_stream fs lic n) s.
Proof.
  intros I L. unfold st_parse_tup_stream, ct_parse_tup_stream. apply sm_bind'; [apply tup_loop_sm; auto|]. intros vs q J. apply sm_tup. lia.
Qed.
End Need.

(** ** Files *)
Lemma run_sm {A} Tl (m : M A) c file t sh : (forall s, in_text t s -> sm Tl m c s) ->
  m_tall (snd (ct_run_stream c file t sh)) <= Tl -> run_stream m file t sh = fst (ct_run_stream c file t sh).
Proof.
  intros H. unfold run_stream, ct_run_stream. specialize (H _ (in_text_init file t sh)). unfold sm in H.
  destruct (c _) as [[o q] u]. cbn [fst snd] in *. intros L. rewrite (H L). reflexivity.
Qed.
Definition files_at_most (w : N) (fs : fsys) : Prop :=
  forall path i e text, fs_entry fs path = Some (i, e) -> fe_read e = inl text -> chains_at_most w text.
Lemma load_file_sm fs w Tl k : files_at_most w fs -> forall st ty p sh, N.of_nat k * (262 + 2 * w) + Tl <= st ->
  m_tall (snd (ct_load_file fs k ty p sh)) <= Tl -> st_load_file fs k st ty p sh = fst (ct_load_file fs k ty p sh).
Proof.
  intros FW. induction k as [|k IH]; intros st ty p sh L; [reflexivity|]. cbn [st_load_file ct_load_file].
  destruct (N.eqb_spec st 0); [lia|]. unfold open_file. destruct (fs_entry fs p) as [[i e]|] eqn:En; [|reflexivity].
  destruct (fe_read e) as [text|m] eqn:R; [|reflexivity]. specialize (FW _ _ _ _ En R).
  assert (HF : forall st' ty f l c s, N.of_nat k * (262 + 2 * w) + Tl <= st' ->
    sm Tl (finish_include fs (st_load_file fs k st') ty f l c) (ct_finish_include fs (ct_load_file fs k) ty f l c) s).
  { intros. eapply finish_sm; eauto. }
  destruct ty; [|reflexivity| |].
  1: match goal with |- context [ct_run_stream ?c ?f ?t ?sh0] => pose proof (run_sm Tl (st_parse_obj_stream fs (st_load_file fs k) (stream_fuel text) (st - 1)) c f t sh0
       (fun s I => obj_stream_sm fs _ _ Tl (N.of_nat k * (262 + 2 * w) + Tl) ltac:(lia) HF text w FW (stream_fuel text) (st - 1) s I ltac:(lia))) as Q; destruct (ct_run_stream c f t sh0) as [[o sh2] u] end.
  2: match goal with |- context [ct_run_stream ?c ?f ?t ?sh0] => pose proof (run_sm Tl (st_parse_arr_stream fs (st_load_file fs k) (stream_fuel text) (st - 1)) c f t sh0
       (fun s I => arr_stream_sm fs _ _ Tl (N.of_nat k * (262 + 2 * w) + Tl) ltac:(lia) HF text w FW (stream_fuel text) (st - 1) s I ltac:(lia))) as Q; destruct (ct_run_stream c f t sh0) as [[o sh2] u] end.
  3: match goal with |- context [ct_run_stream ?c ?f ?t ?sh0] => pose proof (run_sm Tl (st_parse_tup_stream fs (st_load_file fs k) (stream_fuel text) (st - 1)) c f t sh0
       (fun s I => tup_stream_sm fs _ _ Tl (N.of_nat k * (262 + 2 * w) + Tl) ltac:(lia) HF text w FW (stream_fuel text) (st - 1) s I ltac:(lia))) as Q; destruct (ct_run_stream c f t sh0) as [[o sh2] u] end.
  all: cbn [fst snd m_add m_tall] in *; intros M; rewrite Q by lia; reflexivity.
Qed.
Lemma from_str_sm fs w st g text : files_at_most w fs -> chains_at_most w text ->
  (N.of_nat (length (fs_files fs)) + 2) * (262 + 2 * w) + m_tall (snd (metered_str fs g text)) <= st -> from_str_within fs st g text = from_str fs g text.
Proof.
  intros FW CW L. unfold from_str_within, from_str. rewrite <- er_str. f_equal. f_equal. unfold metered_str in *.
  match goal with |- _ = fst (ct_run_stream ?c _ _ _) => set (Tl := m_tall (snd (ct_run_stream c None text (init_sh g)))) in * end.
  apply (run_sm Tl); [|subst Tl; lia]. intros s I.
  apply (obj_stream_sm fs _ _ Tl (N.of_nat (inc_fuel fs) * (262 + 2 * w) + Tl)) with (T := text) (w := w); auto; [lia| |unfold inc_fuel; lia].
  intros. eapply finish_sm; eauto. intros. eapply load_file_sm; eauto.
Qed.
Lemma from_str_sm_no_files fs w st g text : (forall p, canon fs p = None) -> chains_at_most w text ->
  261 + 2 * w + m_tall (snd (metered_str fs g text)) <= st -> from_str_within fs st g text = from_str fs g text.
Proof.
  intros C CW L. unfold from_str_within, from_str. rewrite <- er_str. f_equal. f_equal. unfold metered_str in *.
  match goal with |- _ = fst (ct_run_stream ?c _ _ _) => set (Tl := m_tall (snd (ct_run_stream c None text (init_sh g)))) in * end.
  apply (run_sm Tl); [|subst Tl; lia]. intros s I.
  apply (obj_stream_sm fs _ _ Tl Tl) with (T := text) (w := w); auto; [lia|].
  intros. apply finish_no_files; auto.
Qed.
Lemma from_file_sm fs w st g path : files_at_most w fs ->
  (N.of_nat (length (fs_files fs)) + 2) * (262 + 2 * w) + m_tall (snd (metered_file fs g path)) <= st -> from_file_within fs st g path = from_file fs g path.
Proof.
  intros FW L. unfold from_file_within, from_file. rewrite <- er_file. f_equal. unfold metered_file in *. revert L. unfold open_file.
  destruct (fs_entry fs path) as [[i e]|] eqn:En; [|reflexivity].
  destruct (fe_read e) as [text|m] eqn:R; [|reflexivity]. f_equal.
  match goal with |- context [ct_run_stream ?c ?f ?t ?sh0] => pose proof (run_sm (m_tall (snd (ct_run_stream c f t sh0))) (st_parse_obj_stream fs (st_load_file fs (inc_fuel fs)) (stream_fuel text) st) c f t sh0) as Q;
    set (Tl := m_tall (snd (ct_run_stream c f t sh0))) in *; assert (TE : m_tall (snd (ct_run_stream c f t sh0)) = Tl) by reflexivity;
    destruct (ct_run_stream c f t sh0) as [[o sh2] u] end.
  cbn [fst snd m_add m_tall] in *. intros L. rewrite Q; [reflexivity| |lia]. intros s I.
  apply (obj_stream_sm fs _ _ Tl (N.of_nat (inc_fuel fs) * (262 + 2 * w) + Tl)) with (T := text) (w := w); auto; [lia| |eapply FW; eauto|unfold inc_fuel; lia].
  intros. eapply finish_sm; eauto. intros. eapply load_file_sm; eauto.
Qed.

(** ** A load on a bounded stack dies, or does what it does on an unbounded one *)
Definition dm {A} (st : N) (m : M A) (c : Mt A) : Prop := forall s, fst (m s) = Panic \/ (m s = fst (c s) /\ m_tall (snd (c s)) <= st).
Lemma dm_lift {A} st (m : M A) : dm st m (lift m).
Proof. intros s. right. split; [reflexivity|]. cbn. lia. Qed.
Lemma dm_tick {A} st (m : M A) c : dm st m c -> dm st m (tick c).
Proof. intros H s. destruct (H s) as [P|[E L]]; [left; exact P|right]. unfold tick. destruct (c s) as [r u]. cbn [fst snd m_add m_tall] in *. split; [exact E|lia]. Qed.
Lemma dm_bind {A B} st (m : M A) c (f : A -> M B) f' : dm st m c -> (forall a, dm st (f a) (f' a)) -> dm st (bind m f) (cbind c f').
Proof.
  intros H F s. unfold bind, cbind. destruct (H s) as [P|[E L]].
  - left. destruct (m s) as [[a|e| |] q]; try discriminate P. reflexivity.
  - rewrite E. destruct (c s) as [[[a|e| |] q] u]; cbn [fst snd] in *; auto.
    destruct (F a q) as [P|[E' L']]; [left; exact P|right]. destruct (f' a q) as [r u']. cbn [fst snd m_add m_tall] in *. split; [exact E'|lia].
Qed.
Lemma dm_spare {B} st n (f : unit -> M B) f' : dm st (f tt) (f' tt) -> dm st (bind (spare st n) f) (cbind (c_spare n) f').
Proof.
  intros H s. unfold bind, cbind, spare, c_spare. destruct (N.leb_spec n st); [|left; reflexivity].
  destruct (H s) as [P|[E L]]; [left; exact P|right]. destruct (f' tt s) as [r u]. cbn [fst snd m_add m_tall] in *. split; [exact E|lia].
Qed.
Lemma dm_frame {A} st (b : N -> M A) c : (forall st, dm st (b st) c) -> dm st (frame st b) c.
Proof.
  intros H s. unfold frame. destruct (N.eqb_spec st 0); [left; reflexivity|]. destruct (H (st - 1) s) as [P|[E L]]; [left; exact P|right]. split; [exact E|lia].
Qed.
Ltac dunl := unfold c_peek_unwrap, c_next_unwrap, c_peek, c_next, c_find_char, c_getpos, c_getline, c_getfile, c_col_minus_1, c_get_globals, c_get_sh, c_panic, c_nofuel, c_parse_str,
  c_ret, c_fail, c_raise, c_assert_, c_insert_global, c_put_sh, c_check_value_end, c_new_obj, c_new_arr, c_parse_numeric, c_parse_field, c_lookup_variable.
Ltac d1 :=
  match goal with
  | |- dm _ _ (tick _) => apply dm_tick
  | |- dm _ (frame _ _) _ => apply dm_frame; intros
  | |- dm _ (bind (spare _ _) _) _ => apply dm_spare
  | |- dm _ (bind _ _) (cbind _ _) => apply dm_bind; [|intros]
  | |- dm _ (if ?b then _ else _) _ => destruct b
  | |- dm _ (match ?x with _ => _ end) _ => destruct x
  | |- dm _ ?m (lift ?m) => apply dm_lift
  | |- dm _ (let _ := _ in _) _ => cbv zeta
  | |- dm _ (st_unary_op_on_value _ _ _ _ _) _ => apply dm_spare, dm_lift
  | |- dm _ (st_binary_op_on_values _ _ _ _ _ _) _ => apply dm_spare, dm_spare, dm_lift
  | |- dm _ (st_include_token _ _ _ _) _ => apply dm_spare, dm_lift
  | |- dm _ (st_index_by _ _ _ _ _) _ => apply dm_spare, dm_lift
  | |- dm _ (st_new_tup _ _) _ => apply dm_spare, dm_lift
  | H : _ |- _ => apply H
  end.
Lemma dm_low st ops : forall v vals, dm st (st_eval_low_ops st v vals ops) (ct_eval_low_ops v vals ops).
Proof.
  induction ops as [|op ops IH]; intros v vals; [destruct vals; apply dm_lift|].
  destruct vals as [|[[v2 l2] c2] vals]; [exact (dm_tick _ _ _ (dm_lift st (@panic value)))|].
  assert (B : dm st (st_binary_op_on_values st v v2 op l2 c2) (c_binary_op_on_values v v2 op l2 c2)) by (apply dm_spare, dm_spare, dm_lift).
  exact (dm_tick _ _ _ (dm_bind _ _ _ _ _ B (fun x => IH x vals))).
Qed.
Section Dies.
Variable fs : fsys.
Variable lis : N -> inc_ty -> str -> shared -> outcome value * shared.
Variable lic : inc_ty -> str -> shared -> (outcome value * shared) * meter.
Hypothesis HL : forall st ty p sh, fst (lis st ty p sh) = Panic \/ (lis st ty p sh = fst (lic ty p sh) /\ m_tall (snd (lic ty p sh)) <= st).
Lemma dm_finish st ty f l k : dm st (finish_include fs (lis st) ty f l k) (ct_finish_include fs lic ty f l k).
Proof.
  assert (G : forall p, dm st (run_include (lis st) ty p) (ct_run_include lic ty p)).
  { intros p s. unfold run_include, ct_run_include. destruct (HL st ty p (s_sh s)) as [P|[E L]].
    - left. destruct (lis st ty p (s_sh s)). exact P.
    - right. rewrite E. destruct (lic ty p (s_sh s)) as [[o sh] u]. auto. }
  unfold finish_include, ct_finish_include. dunl. repeat d1.
Qed.
Definition DM (n : nat) : Prop :=
  (forall st a b c d e f, dm st (st_parse_value fs lis n st a b c d e f) (ct_parse_value fs lic n a b c d e f)) /\
  (forall st a b c d e, dm st (st_parse_ops fs lis n st a b c d e) (ct_parse_ops fs lic n a b c d e)) /\
  (forall st a b c d, dm st (st_parse_unary_op fs lis n st a b c d) (ct_parse_unary_op fs lic n a b c d)) /\
  (forall st a, dm st (st_parse_obj fs lis n st a) (ct_parse_obj fs lic n a)) /\
  (forall st a b c d, dm st (st_pairs_loop fs lis n st a b c d) (ct_pairs_loop fs lic n a b c d)) /\
  (forall st a b c d, dm st (st_parse_field_value_pair fs lis n st a b c d) (ct_parse_field_value_pair fs lic n a b c d)) /\
  (forall st a b, dm st (st_parse_arr fs lis n st a b) (ct_parse_arr fs lic n a b)) /\
  (forall st a b c d e, dm st (st_arr_loop fs lis n st a b c d e) (ct_arr_loop fs lic n a b c d e)) /\
  (forall st a b, dm st (st_parse_tup fs lis n st a b) (ct_parse_tup fs lic n a b)) /\
  (forall st a b c, dm st (st_tup_loop fs lis n st a b c) (ct_tup_loop fs lic n a b c)) /\
  (forall st a b c d e, dm st (st_parse_variable fs lis n st a b c d e) (ct_parse_variable fs lic n a b c d e)) /\
  (forall st a b, dm st (st_parse_include fs lis n st a b) (ct_parse_include fs lic n a b)).
Lemma DM_all n : DM n.
Proof.
  induction n as [|n (H1&H2&H3&H4&H5&H6&H7&H8&H9&H10&H11&H12)].
  { unfold DM; repeat match goal with |- _ /\ _ => split end; intros; apply dm_lift. }
  pose proof dm_finish as Hf. pose proof dm_low as Hl. unfold DM; repeat match goal with |- _ /\ _ => split end; intros.
  - rewrite st_parse_value_S, ct_parse_value_S. dunl. repeat d1.
  - rewrite st_parse_ops_S, ct_parse_ops_S. dunl. repeat d1.
  - rewrite st_parse_unary_op_S, ct_parse_unary_op_S. dunl. repeat d1.
  - rewrite st_parse_obj_S, ct_parse_obj_S. dunl. repeat d1.
  - rewrite st_pairs_loop_S, ct_pairs_loop_S. dunl. repeat d1.
  - rewrite st_parse_field_value_pair_S, ct_parse_field_value_pair_S. dunl. repeat d1.
  - rewrite st_parse_arr_S, ct_parse_arr_S. dunl. repeat d1.
  - rewrite st_arr_loop_S, ct_arr_loop_S. dunl. repeat d1.
  - rewrite st_parse_tup_S, ct_parse_tup_S. dunl. repeat d1.
  - rewrite st_tup_loop_S, ct_tup_loop_S. dunl. repeat d1.
  - rewrite st_parse_variable_S, ct_parse_variable_S. dunl. cbv zeta. repeat d1.
  - rewrite st_parse_include_S, ct_parse_include_S. dunl. repeat d1.
Qed.
Lemma dm_obj_stream n st : dm st (st_parse_obj_stream fs lis n st) (ct_parse_obj_stream fs lic n).
Proof. destruct (DM_all n) as (_&_&_&_&H&_). unfold st_parse_obj_stream, ct_parse_obj_stream. dunl. apply dm_frame. intros st'. repeat d1. Qed.
Lemma dm_arr_stream n st : dm st (st_parse_arr_stream fs lis n st) (ct_parse_arr_stream fs lic n).
Proof.
  assert (H : forall n vs t any, dm st (st_arr_file_loop fs lis n st vs t any) (ct_arr_file_loop fs lic n vs t any)).
  { clear n. induction n as [|n IH]; intros; [apply dm_lift|]. rewrite ct_arr_file_loop_S. cbn [st_arr_file_loop]. dunl. destruct (DM_all n) as (H&_). repeat d1. }
  unfold st_parse_arr_stream, ct_parse_arr_stream. dunl. repeat d1.
Qed.
Lemma dm_tup_stream n st : dm st (st_parse_tup_stream fs lis n st) (ct_parse_tup_stream fs lic n).
Proof.
  assert (H : forall n vs, dm st (st_tup_file_loop fs lis n st vs) (ct_tup_file_loop fs lic n vs)).
  { clear n. induction n as [|n IH]; intros; [apply dm_lift|]. rewrite ct_tup_file_loop_S. cbn [st_tup_file_loop]. dunl. destruct (DM_all n) as (H&_). repeat d1. }
  unfold st_parse_tup_stream, ct_parse_tup_stream. dunl. repeat d1.
Qed.
End Dies.
Definition dmr {A} st (r : outcome A * shared) (c : (outcome A * shared) * meter) : Prop :=
  fst r = Panic \/ (r = fst c /\ m_tall (snd c) <= st).
Lemma dm_run {A} st (m : M A) c file t sh : dm st m c -> dmr st (run_stream m file t sh) (ct_run_stream c file t sh).
Proof.
  intros H. unfold dmr, run_stream, ct_run_stream. destruct (H (mkst file t 1 1 [] sh)) as [P|[E L]].
  - left. destruct (m _). exact P.
  - right. rewrite E. destruct (c _) as [[o q] u]. auto.
Qed.
Lemma dm_load fs k : forall st ty p sh, dmr st (st_load_file fs k st ty p sh) (ct_load_file fs k ty p sh).
Proof.
  induction k as [|k IH]; intros st ty p sh; [right; split; [reflexivity|cbn; lia]|]. cbn [st_load_file ct_load_file].
  destruct (N.eqb_spec st 0); [left; reflexivity|].
  unfold open_file. destruct (fs_entry fs p) as [[i e]|] eqn:En; [|right; split; [reflexivity|cbn; lia]].
  destruct (fe_read e) as [text|m] eqn:R; [|right; split; [reflexivity|cbn; lia]].
  assert (D : forall A (m : M A) c (h : A -> value) sh', dm (st - 1) m c ->
    dmr st (done_file fs p (let '(o, sh) := run_stream m (Some p) text sh' in (omap h o, sh)))
      (let '(r, u) := (let '(o, sh, u) := ct_run_stream c (Some p) text sh' in (omap h o, sh, u)) in (done_file fs p r, m_add (opening fs p) u))).
  { intros A m c h sh' H. apply (dm_run _ _ _ (Some p) text sh') in H. destruct H as [P|[E L]].
    - left. destruct (run_stream m (Some p) text sh') as [[a|e'| |] sh2]; try discriminate P. reflexivity.
    - right. rewrite E. destruct (ct_run_stream c (Some p) text sh') as [[o sh2] u]. cbn [fst snd m_add m_tall opening] in *. split; [reflexivity|lia]. }
  destruct ty; [apply D, dm_obj_stream, IH|right; split; [reflexivity|cbn; lia]|apply D, dm_arr_stream, IH|apply D, dm_tup_stream, IH].
Qed.
Lemma dm_str fs st g t : from_str_within fs st g t = None \/
  (from_str_within fs st g t = from_str fs g t /\ m_tall (snd (metered_str fs g t)) <= st).
Proof.
  unfold from_str_within, from_str. rewrite <- er_str. unfold metered_str.
  destruct (dm_run st _ _ None t (init_sh g) (dm_obj_stream fs (st_load_file fs (inc_fuel fs)) (ct_load_file fs (inc_fuel fs)) (dm_load fs _) (stream_fuel t) st)) as [P|[E L]].
  - left. rewrite P. reflexivity.
  - right. rewrite E. auto.
Qed.
Lemma dm_file fs st g p : from_file_within fs st g p = None \/
  (from_file_within fs st g p = from_file fs g p /\ m_tall (snd (metered_file fs g p)) <= st).
Proof.
  unfold from_file_within, from_file. rewrite <- er_file. unfold metered_file, open_file.
  destruct (fs_entry fs p) as [[i e]|] eqn:En; [|right; split; [reflexivity|cbn; lia]].
  destruct (fe_read e) as [text|m] eqn:R; [|right; split; [reflexivity|cbn; lia]].
  match goal with |- context [ct_run_stream ?c ?f ?t ?sh0] =>
    destruct (dm_run st _ c f t sh0 (dm_obj_stream fs (st_load_file fs (inc_fuel fs)) (ct_load_file fs (inc_fuel fs)) (dm_load fs _) (stream_fuel text) st)) as [P|[E L]] end.
  - left. rewrite P. reflexivity.
  - right. rewrite E. destruct (ct_run_stream _ _ _ _) as [r u]. cbn [fst snd m_add m_tall opening] in *. split; [reflexivity|lia].
Qed.
End S.
