(** * Header: what lines put before the texts of a project change.  (Specification: [header], [lines], [with_headers], [further_down].) *)
From Verif Require Export Fuel FaultSound.
From Coq Require String.
Import String.StringSyntax.
Open Scope N_scope.

(** Whole lines that are blank or comments: gaps (see Syntax.v) that are empty or end with a newline. *)
Definition header (w : str) : Prop := ws w /\ (w = [] \/ exists u, w = u ++ [c_nl]).
(** How many lines [w] is. *)
Definition lines (w : str) : N := N.of_nat (count_occ N.eq_dec w c_nl).
(** [fs'] has the files of [fs] under the same names, the text of the [i]-th one after the header [pre i]. *)
Definition with_headers (pre : nat -> str) (fs fs' : fsys) : Prop :=
  (forall i, header (pre i)) /\
  (forall p, fs_resolve fs' p = fs_resolve fs p) /\ (forall p, fs_open_err fs' p = fs_open_err fs p) /\
  List.length (fs_files fs') = List.length (fs_files fs) /\
  forall i e, nth_error (fs_files fs) i = Some e -> exists e', nth_error (fs_files fs') i = Some e' /\
    fe_canon e' = fe_canon e /\ fe_read e' = match fe_read e with inl t => inl (pre i ++ t) | inr m => inr m end.
(** How far the lines of the text at [file] further_down: [top] is for the text that is not in a file. *)
Definition shift_of (pre : nat -> str) (fs : fsys) (top : N) (file : option str) : N :=
  match file with
  | None => top
  | Some p => match fs_entry fs p with Some (i, _) => lines (pre i) | None => 0 end
  end.
(** The same problem, [n] lines further down. *)
Definition lower_kind (n : N) (k : pkind) : pkind :=
  match k with
  | BinaryOperatorError t1 t2 op l c => BinaryOperatorError t1 t2 op (l + n) c
  | CyclicInclude f l c => CyclicInclude f (l + n) c
  | DuplicateField f l c => DuplicateField f (l + n) c
  | DuplicateGlobal f l c => DuplicateGlobal f (l + n) c
  | ExpectedType t1 t2 l c => ExpectedType t1 t2 (l + n) c
  | GlobalNotFound f l c => GlobalNotFound f (l + n) c
  | InvalidIndex i l c => InvalidIndex i (l + n) c
  | InvalidClosingBracket e f l c => InvalidClosingBracket e f (l + n) c
  | InvalidDot t l c => InvalidDot t (l + n) c
  | InvalidEscapeChar ch l c => InvalidEscapeChar ch (l + n) c
  | InvalidFieldChar ch l c => InvalidFieldChar ch (l + n) c
  | InvalidFieldName f l c => InvalidFieldName f (l + n) c
  | InvalidIncludePath f l c => InvalidIncludePath f (l + n) c
  | InvalidIncludeToken t l c => InvalidIncludeToken t (l + n) c
  | InvalidNumeric l c => InvalidNumeric (l + n) c
  | InvalidValue s l c => InvalidValue s (l + n) c
  | InvalidValueChar ch l c => InvalidValueChar ch (l + n) c
  | MaxDepth l c => MaxDepth (l + n) c
  | UnaryOperatorError t op l c => UnaryOperatorError t op (l + n) c
  | UnexpectedEnd l => UnexpectedEnd (l + n)
  | VariableNotFound v l c => VariableNotFound v (l + n) c
  | IoErrorKind s => IoErrorKind s
  | ParseIntErrorKind s => ParseIntErrorKind s
  | OverErrorKind s => OverErrorKind s
  end.
Definition not_over (k : pkind) : Prop := match k with OverErrorKind _ => False | _ => True end.
(** [e'] is [e], as many lines further down as [by_] says for the file it is in.  (The messages of [get] and the like
    are followed by their position.) *)
Inductive further_down (by_ : option str -> N) : perr -> perr -> Prop :=
| moved_kind f k : not_over k -> further_down by_ (mkperr f k) (mkperr f (lower_kind (by_ f) k))
| moved_over f words l c : further_down by_ (mkperr f (OverErrorKind (words ++ lit " at line " ++ N_to_dec l ++ lit ", col " ++ N_to_dec c)))
                                            (mkperr f (OverErrorKind (words ++ lit " at line " ++ N_to_dec (l + by_ f) ++ lit ", col " ++ N_to_dec c))).

Section H.
Context `{U : Unicode}.
Variable sft : option str -> N.
Variable chg : str -> Prop.
Definition hit (log : list event) : Prop := exists c v, chg c /\ In (EInc c IStr v) log.
Lemma hit_incl l l' : incl l l' -> hit l -> hit l'.
Proof. intros I (c & v & C & H). exists c, v. auto. Qed.
Definition low (n : N) (s : pstate) : pstate := mkst (s_file s) (s_rest s) (s_line s + n) (s_col s) (s_globals s) (s_sh s).
Definition orel {A} (t : A -> A) (o o' : outcome A) : Prop :=
  match o, o' with
  | Ok a, Ok b => b = t a
  | Err e, Err e' => further_down sft e e'
  | Panic, Panic => True
  | _, _ => False
  end.
Definition lg {A} (r : A * pstate) : list event := sh_log (s_sh (snd r)).
Definition mv {A} (n : N) (t : A -> A) (m m' : M A) : Prop := forall s, sft (s_file s) = n ->
  s_file (snd (m s)) = s_file s /\ incl (sh_log (s_sh s)) (lg (m s)) /\
  (fst (m s) = NoFuel \/ hit (lg (m s)) \/ (snd (m' (low n s)) = low n (snd (m s)) /\ orel t (fst (m s)) (fst (m' (low n s))))).
Notation idm := (fun x => x).
Lemma mv_bind {A B} n (t : A -> A) (u : B -> B) m m' f f' : mv n t m m' -> (forall a, mv n u (f a) (f' (t a))) -> mv n u (bind m f) (bind m' f').
Proof.
  intros Hm Hf s E. destruct (Hm s E) as (F1 & I1 & R1). unfold bind, lg in *.
  destruct (m s) as [[a|e| |] s1] eqn:R; cbn [fst snd] in *.
  - assert (E1 : sft (s_file s1) = n) by (rewrite F1; exact E). destruct (Hf a s1 E1) as (F2 & I2 & R2).
    split; [congruence|]. split; [exact (incl_tran I1 I2)|].
    destruct R1 as [R1|[R1|[R1 R1']]]; [discriminate|right; left; exact (hit_incl _ _ I2 R1)|].
    destruct (m' (low n s)) as [[b|e'| |] s1']; cbn [fst snd orel] in *; try contradiction. subst b s1'. exact R2.
  - split; [exact F1|]. split; [exact I1|]. destruct R1 as [R1|[R1|[R1 R1']]]; [discriminate|auto|]. right. right.
    destruct (m' (low n s)) as [[b|e'| |] s1']; cbn [fst snd orel] in *; try contradiction. auto.
  - split; [exact F1|]. split; [exact I1|]. destruct R1 as [R1|[R1|[R1 R1']]]; [discriminate|auto|]. right. right.
    destruct (m' (low n s)) as [[b|e'| |] s1']; cbn [fst snd orel] in *; try contradiction. auto.
  - auto.
Qed.
Lemma mv_bind_id {A B} n (u : B -> B) (m m' : M A) f f' : mv n idm m m' -> (forall a, mv n u (f a) (f' a)) -> mv n u (bind m f) (bind m' f').
Proof. intros. apply (mv_bind n idm); auto. Qed.
Lemma mv_fail {A} n (t : A -> A) k k' : not_over k -> k' = lower_kind n k -> mv n t (fail k) (fail k').
Proof.
  intros K -> s E. split; [reflexivity|]. split; [apply incl_refl|]. right. right. split; [reflexivity|]. cbn. rewrite <- E. constructor. exact K.
Qed.
Lemma mv_raise_over {A} n (t : A -> A) e f l c : sft f = n -> mv n t (raise (from_over e f l c)) (raise (from_over e f (l + n) c)).
Proof. intros E s _. split; [reflexivity|]. split; [apply incl_refl|]. right. right. split; [reflexivity|]. rewrite <- E. exact (moved_over sft f (over_error_show e) l c). Qed.
Lemma mv_raise_int {A} n (t : A -> A) m : mv n t (raise (mkperr None (ParseIntErrorKind m))) (raise (mkperr None (ParseIntErrorKind m))).
Proof. intros s E. split; [reflexivity|]. split; [apply incl_refl|]. right. right. split; [reflexivity|]. apply (moved_kind sft None (ParseIntErrorKind m)). exact I. Qed.
Ltac triv := let s := fresh "s" in let E := fresh "E" in
  intros s E; split; [reflexivity|]; split; [apply incl_refl|]; right; right; split; reflexivity || exact I.
Lemma mv_ret {A} n (t : A -> A) a b : b = t a -> mv n t (ret a) (ret b). Proof. intros ->. triv. Qed.
Lemma mv_panic {A} n (t : A -> A) : mv n t panic panic. Proof. triv. Qed.
Lemma mv_nofuel {A} n (t : A -> A) m : mv n t nofuel m.
Proof. intros s E. split; [reflexivity|]. split; [apply incl_refl|]. left. reflexivity. Qed.
Lemma mv_peek n : mv n idm peek peek. Proof. triv. Qed.
Lemma mv_globals n : mv n idm get_globals get_globals. Proof. triv. Qed.
Lemma mv_insert n f v : mv n idm (insert_global f v) (insert_global f v). Proof. triv. Qed.
Lemma mv_gen n : mv n idm gen_id gen_id. Proof. triv. Qed.
Lemma mv_sent n k : mv n idm (sentinel k) (sentinel k).
Proof. intros s E. unfold sentinel, low, lg. cbn. destruct (g_sent _ _); (split; [reflexivity|]; split; [apply incl_refl|]; right; right; split; reflexivity). Qed.
Lemma mv_col n : mv n idm col_minus_1 col_minus_1.
Proof. intros s E. unfold col_minus_1, low, lg. cbn. destruct (s_col s =? 0); (split; [reflexivity|]; split; [apply incl_refl|]; right; right; split; reflexivity || exact I). Qed.
Lemma mv_line {B} n (u : B -> B) f f' : (forall l, mv n u (f l) (f' (l + n))) -> mv n u (bind getline f) (bind getline f').
Proof. apply (mv_bind n (fun l => l + n)). triv. Qed.
Lemma mv_pos {B} n (u : B -> B) f f' : (forall l k, mv n u (f (l, k)) (f' (l + n, k))) -> mv n u (bind getpos f) (bind getpos f').
Proof. intros H. apply (mv_bind n (fun p => (fst p + n, snd p))); [triv|]. intros [l k]. apply H. Qed.
Lemma mv_file {B} n (u : B -> B) f f' : (forall x, sft x = n -> mv n u (f x) (f' x)) -> mv n u (bind getfile f) (bind getfile f').
Proof. intros H s E. unfold bind, getfile. exact (H (s_file s) E s E). Qed.
Lemma adv_low c l k n l' k' : adv c l k = (l', k') -> adv c (l + n) k = (l' + n, k').
Proof. unfold adv. destruct (c =? c_nl); intros [= <- <-]; f_equal; lia. Qed.
Lemma mv_next n : mv n idm next next.
Proof.
  intros [fi r li ko gl sh] E. unfold next, low, lg. cbn. destruct r as [|c r].
  - split; [reflexivity|]. split; [apply incl_refl|]. right. right. split; reflexivity.
  - destruct (adv c li ko) as [l k] eqn:A. rewrite (adv_low _ _ _ n _ _ A). split; [reflexivity|]. split; [apply incl_refl|]. right. right. split; reflexivity.
Qed.
Definition low_scan {A} (n : N) (q : A * (str * N * N)) : A * (str * N * N) := let '(x, (r, l, k)) := q in (x, (r, l + n, k)).
Lemma mv_scan {A} n (f : str -> N -> N -> A * (str * N * N)) : (forall r l k, f r (l + n) k = low_scan n (f r l k)) ->
  mv n idm (fun s => let '(x, (r, l, k)) := f (s_rest s) (s_line s) (s_col s) in (Ok x, set_stream s r l k))
      (fun s => let '(x, (r, l, k)) := f (s_rest s) (s_line s) (s_col s) in (Ok x, set_stream s r l k)).
Proof.
  intros H s E. unfold lg. cbn [low s_rest s_line s_col]. rewrite H. destruct (f _ _ _) as [x [[r l] k]]. cbn.
  split; [reflexivity|]. split; [apply incl_refl|]. right. right. split; reflexivity.
Qed.
Lemma find_low n r : forall l k b, find_char_l r (l + n) k b = low_scan n (find_char_l r l k b).
Proof.
  induction r as [|c r IH]; intros l k b; [reflexivity|]. cbn [find_char_l].
  destruct (adv c l k) as [l' k'] eqn:A. rewrite (adv_low _ _ _ n _ _ A).
  destruct b; [apply IH|]. destruct (c =? c_hash); [apply IH|]. destruct (ch_is_whitespace c); [apply IH|reflexivity].
Qed.
Lemma str_low n r : forall l k a b, scan_str r (l + n) k a b = low_scan n (scan_str r l k a b).
Proof.
  induction r as [|c r IH]; intros l k a b; [reflexivity|]. cbn [scan_str].
  destruct (adv c l k) as [l' k'] eqn:A. rewrite (adv_low _ _ _ n _ _ A).
  destruct b; [destruct (get_escape_char c); [apply IH|reflexivity]|]. destruct (c =? c_quote); [reflexivity|]. destruct (c =? c_bslash); apply IH.
Qed.
Lemma num_low n r : forall l k a b d e, scan_numeric r (l + n) k a b d e = low_scan n (scan_numeric r l k a b d e).
Proof.
  induction r as [|c r IH]; intros l k a b d e; [reflexivity|]. cbn [scan_numeric].
  destruct (adv c l k) as [l' k'] eqn:A. rewrite (adv_low _ _ _ n _ _ A).
  repeat match goal with |- context [if ?x then _ else _] => destruct x; try reflexivity; try apply IH end.
Qed.
Lemma field_low n r : forall l k a b, scan_field r (l + n) k a b = low_scan n (scan_field r l k a b).
Proof.
  induction r as [|c r IH]; intros l k a b; [reflexivity|]. cbn [scan_field].
  destruct (adv c l k) as [l' k'] eqn:A. rewrite (adv_low _ _ _ n _ _ A).
  destruct ((c =? c_colon) && negb b)%bool; [reflexivity|]. destruct (is_valid_field_char c b); [apply IH|reflexivity].
Qed.
Lemma var_low n r : forall l k a, scan_var r (l + n) k a = low_scan n (scan_var r l k a).
Proof.
  induction r as [|c r IH]; intros l k a; [reflexivity|]. cbn [scan_var].
  destruct (adv c l k) as [l' k'] eqn:A. rewrite (adv_low _ _ _ n _ _ A).
  destruct (c =? c_dot); [reflexivity|]. destruct (is_value_end_char c); [reflexivity|]. destruct (is_valid_field_char c false); [apply IH|reflexivity].
Qed.
Lemma mv_find n : mv n idm find_char find_char.
Proof. apply (mv_scan n (fun r l k => find_char_l r l k false)). intros. apply find_low. Qed.
Definition lv (n : N) (p : value * N * N) : value * N * N := let '(v, l, k) := p in (v, l + n, k).
Lemma pop_map {A} (f : A -> A) l : pop_back (map f l) = match pop_back l with Some (a, x) => Some (map f a, f x) | None => None end.
Proof. unfold pop_back. rewrite <- map_rev. destruct (rev l); [reflexivity|]. cbn. rewrite map_rev. reflexivity. Qed.
Ltac k1 :=
  match goal with
  | |- mv _ _ (bind getline _) _ => apply mv_line; intros
  | |- mv _ _ (bind getpos _) _ => apply mv_pos; intros; cbv beta iota
  | |- mv _ _ (bind getfile _) _ => apply mv_file; intros
  | |- mv _ _ (bind (parse_ops _ _ _ _ _ _ _ _) _) _ => fail 1
  | |- mv _ _ (bind _ _) _ => apply mv_bind_id; [|intros; cbv beta]
  | |- mv _ _ (if ?b then _ else _) _ => destruct b
  | |- mv _ _ (match pop_back _ with _ => _ end) _ => rewrite pop_map; destruct (pop_back _) as [[? [[? ?] ?]]|]; cbv beta iota delta [lv]
  | |- mv _ _ (match ?x with _ => _ end) _ => destruct x
  | |- mv _ _ (let _ := _ in _) _ => cbv zeta
  | |- mv _ _ (ret _) _ => apply mv_ret; reflexivity
  | |- mv _ _ (fail _) _ => apply mv_fail; [exact I|reflexivity]
  | |- mv _ _ (raise (mkperr None (ParseIntErrorKind _))) _ => apply mv_raise_int
  | |- mv _ _ (raise (from_over _ _ _ _)) _ => apply mv_raise_over; assumption
  | |- mv _ _ panic _ => apply mv_panic
  | |- mv _ _ nofuel _ => apply mv_nofuel
  | |- mv _ _ next _ => apply mv_next
  | |- mv _ _ find_char _ => apply mv_find
  | |- mv _ _ gen_id _ => apply mv_gen
  | |- mv _ _ (sentinel _) _ => apply mv_sent
  | |- mv _ _ peek _ => apply mv_peek
  | |- mv _ _ get_globals _ => apply mv_globals
  | |- mv _ _ (insert_global _ _) _ => apply mv_insert
  | |- mv _ _ col_minus_1 _ => apply mv_col
  | |- mv _ _ (unwrap _) _ => unfold unwrap
  | |- mv _ _ (unwrap_o _) _ => unfold unwrap_o
  | |- mv _ _ (assert_ _) _ => unfold assert_
  | |- mv _ _ peek_unwrap _ => unfold peek_unwrap
  | |- mv _ _ next_unwrap _ => unfold next_unwrap
  | |- mv _ _ (new_obj _ _) _ => unfold new_obj
  | |- mv _ _ (new_arr _ _) _ => unfold new_arr
  | |- mv _ _ (new_tup _) _ => unfold new_tup
  | |- mv _ _ (check_value_end _) _ => unfold check_value_end
  | |- mv _ _ (unary_op_on_value _ _ _ _) _ => unfold unary_op_on_value
  | |- mv _ _ (binary_op_on_values _ _ _ _ _) _ => unfold binary_op_on_values
  | |- mv _ _ (include_token _ _ _) _ => unfold include_token
  | |- mv _ _ (lookup_variable _ _ _ _ _) _ => unfold lookup_variable
  | |- mv _ _ (index_by _ _ _ _) _ => unfold index_by
  | |- mv _ _ (parse_bigint _) _ => unfold parse_bigint
  end.
Ltac ks := repeat k1.
Lemma mv_str n : mv n idm parse_str parse_str.
Proof. unfold parse_str. ks. apply (mv_scan n (fun r l k => scan_str r l k [] false)). intros. apply str_low. Qed.
Lemma mv_numeric n l k : mv n idm (parse_numeric l k) (parse_numeric (l + n) k).
Proof. unfold parse_numeric. ks. apply (mv_scan n (fun r l k => scan_numeric r l k [] [] false false)). intros. apply num_low. Qed.
Lemma mv_field n l k : mv n idm (parse_field l k) (parse_field (l + n) k).
Proof. unfold parse_field. ks. apply (mv_scan n (fun r l k => scan_field r l k a0 true)). intros. apply field_low. Qed.
Lemma mv_binop n v w op l k : mv n idm (binary_op_on_values v w op l k) (binary_op_on_values v w op (l + n) k).
Proof. ks. Qed.
Lemma mv_low n ops : forall v vals, mv n idm (eval_low_ops v vals ops) (eval_low_ops v (map (lv n) vals) ops).
Proof.
  induction ops as [|op ops IH]; intros v vals; [destruct vals; apply (mv_ret n (fun x => x)); reflexivity|]. destruct vals as [|[[v2 l2] k2] vals]; [apply (mv_panic n (fun x => x))|].
  cbn [eval_low_ops map lv]. apply mv_bind_id; [apply mv_binop|]. intros a. apply IH.
Qed.

Section Files.
Variables fs fs' : fsys.
Variables li li' : inc_ty -> str -> shared -> outcome value * shared.
Variable cp : str -> Prop.
Hypothesis Hfile : forall p, is_file fs p = is_file fs' p.
Hypothesis Hcan : forall p, canon fs p = canon fs' p.
Hypothesis Hcp : forall p c, cp p -> canon fs p = Some c -> chg c.
Definition lrel (ty : inc_ty) (p : str) (sh : shared) : Prop :=
  incl (sh_log sh) (sh_log (snd (li ty p sh))) /\
  (fst (li ty p sh) = NoFuel \/ hit (sh_log (snd (li ty p sh))) \/
   (snd (li' ty p sh) = snd (li ty p sh) /\ orel idm (fst (li ty p sh)) (fst (li' ty p sh))) \/
   (ty = IStr /\ cp p /\ exists v, fst (li ty p sh) = Ok v)).
Hypothesis Hli : forall ty p sh, lrel ty p sh.

(** the left program ends in [hit] *)
Definition ends_hit {A} (m : M A) : Prop := forall s,
  s_file (snd (m s)) = s_file s /\ incl (sh_log (s_sh s)) (lg (m s)) /\ hit (lg (m s)).
Lemma mv_include {B} n (u : B -> B) ty p f f' : (forall v, mv n u (f v) (f' v)) ->
  (ty = IStr -> cp p -> forall v, ends_hit (f v)) ->
  mv n u (bind (run_include li ty p) f) (bind (run_include li' ty p) f').
Proof.
  intros Hf Hh s E. destruct (Hli ty p (s_sh s)) as (I1 & R1). unfold bind, run_include, lg in *. cbn [low s_sh set_sh].
  destruct (li ty p (s_sh s)) as [o h]. cbn [fst snd] in *.
  destruct o as [v|e| |]; cbn [fst snd set_sh s_file s_sh] in *.
  - assert (E1 : sft (s_file (set_sh s h)) = n) by exact E. destruct (Hf v _ E1) as (F2 & I2 & R2). cbn [set_sh s_file s_sh] in F2, I2.
    split; [exact F2|]. split; [exact (incl_tran I1 I2)|].
    destruct R1 as [R1|[R1|[[R1 R1']|(T & C & _)]]]; [discriminate|right; left; exact (hit_incl _ _ I2 R1)| |].
    + destruct (li' ty p (s_sh s)) as [[b|e'| |] h']; cbn [fst snd orel] in *; try contradiction. subst b h'. exact R2.
    + right. left. exact (proj2 (proj2 (Hh T C v _))).
  - split; [reflexivity|]. split; [exact I1|]. destruct R1 as [R1|[R1|[[R1 R1']|(_ & _ & v & X)]]]; [discriminate|auto| |discriminate X].
    right. right. destruct (li' ty p (s_sh s)) as [[b|e'| |] h']; cbn [fst snd orel] in *; try contradiction. subst h'. split; [reflexivity|exact R1'].
  - split; [reflexivity|]. split; [exact I1|]. destruct R1 as [R1|[R1|[[R1 R1']|(_ & _ & v & X)]]]; [discriminate|auto| |discriminate X].
    right. right. destruct (li' ty p (s_sh s)) as [[b|e'| |] h']; cbn [fst snd orel] in *; try contradiction. subst h'. split; [reflexivity|exact I].
  - split; [reflexivity|]. split; [exact I1|]. left. reflexivity.
Qed.
Lemma mv_ext {A} n (t : A -> A) m m' w w' : (forall s, m s = w s) -> (forall s, m' s = w' s) -> mv n t w w' -> mv n t m m'.
Proof. intros H H' K s E. unfold mv, lg in *. rewrite H, H'. apply K, E. Qed.
Lemma bind_bind {A B C} (m : M A) (f : A -> M B) (h : B -> M C) s : bind (bind m f) h s = bind m (fun a => bind (f a) h) s.
Proof. unfold bind. destruct (m s) as [[]]; reflexivity. Qed.
(** reading and writing the shared state *)
Lemma mv_upd {B} n (u : B -> B) (f : shared -> shared) (h h' : shared -> unit -> M B) : (forall sh, incl (sh_log sh) (sh_log (f sh))) ->
  (forall sh a, mv n u (h sh a) (h' sh a)) ->
  mv n u (bind get_sh (fun sh => bind (put_sh (f sh)) (h sh))) (bind get_sh (fun sh => bind (put_sh (f sh)) (h' sh))).
Proof.
  intros H K s E. destruct (K (s_sh s) tt (set_sh s (f (s_sh s))) E) as (K1 & K2 & K3). cbn [s_sh set_sh s_file] in K1, K2.
  unfold bind, get_sh, put_sh. cbn [low s_sh]. split; [exact K1|]. split; [eapply incl_tran; [apply H|exact K2]|exact K3].
Qed.
Lemma mv_get {B} n (u : B -> B) (h h' : shared -> M B) : (forall sh, mv n u (h sh) (h' sh)) -> mv n u (bind get_sh h) (bind get_sh h').
Proof. intros H s E. unfold bind, get_sh. cbn [low s_sh]. exact (H (s_sh s) s E). Qed.
Lemma mv_opt {B X} n (u : B -> B) (o : option X) (f : X -> shared -> shared) (h h' : M B) : (forall x sh, incl (sh_log sh) (sh_log (f x sh))) ->
  mv n u h h' ->
  mv n u (bind get_sh (fun sh => bind (match o with Some x => put_sh (f x sh) | None => ret tt end) (fun _ => h)))
      (bind get_sh (fun sh => bind (match o with Some x => put_sh (f x sh) | None => ret tt end) (fun _ => h'))).
Proof.
  intros H K. destruct o as [x|].
  - apply (mv_upd n u (f x) (fun _ _ => h) (fun _ _ => h')); auto.
  - apply mv_get. intros sh. apply mv_bind_id; [ks|]. auto.
Qed.
Lemma mv_finish n ty f l k : mv n idm (finish_include fs li ty f l k) (finish_include fs' li' ty f (l + n) k).
Proof.
  unfold finish_include. apply mv_file. intros file _. apply mv_bind_id; [ks|]. intros _. cbv zeta. rewrite <- Hfile.
  set (path := match file with Some f0 => beside f0 f | None => f end).
  destruct (negb _); [ks|]. rewrite <- Hcan. destruct (canon fs path) as [full|] eqn:Cn; [|ks].
  apply (mv_upd n _ (log_ev (ETry full)) (fun _ _ => _) (fun _ _ => _)); [intros sh; apply incl_tl, incl_refl|]. intros _ _.
  apply mv_bind_id.
  - destruct file as [f0|]; [|ks]. rewrite <- Hcan. destruct (canon fs f0) as [ff|]; [|ks].
    apply (mv_upd n _ (fun sh => mksh (sh_vals sh) (if mem_str ff (sh_open sh) then sh_open sh else ff :: sh_open sh) (sh_log sh) (sh_g sh))
             (fun _ _ => _) (fun _ _ => _)); [intros sh; apply incl_refl|]. intros _ _. ks.
  - intros storing. apply mv_get. intros sh. destruct (mem_str _ _); [ks|].
    set (rest := fun v : value => bind get_sh (fun sh => bind (match storing with
             | Some f => put_sh (mksh (sh_vals sh) (filter (fun x => negb (str_eqb x f)) (sh_open sh)) (sh_log sh) (sh_g sh))
             | None => ret tt end) (fun _ => bind get_sh (fun sh => bind (put_sh (log_ev (EInc full ty v) sh)) (fun _ => ret v))))).
    assert (R : forall v, mv n idm (rest v) (rest v)).
    { intros v. unfold rest. apply (mv_opt n _ storing (fun f sh => mksh (sh_vals sh) (filter (fun x => negb (str_eqb x f)) (sh_open sh)) (sh_log sh) (sh_g sh)));
        [intros x sh'; apply incl_refl|].
      apply (mv_upd n _ (log_ev (EInc full ty v)) (fun _ _ => _) (fun _ _ => _)); [intros sh'; apply incl_tl, incl_refl|]. intros _ _. ks. }
    destruct (assoc _ _).
    + apply mv_bind_id; [ks|]. exact R.
    + eapply mv_ext; [intros s; apply bind_bind|intros s; apply bind_bind|]. apply mv_include.
      * intros v.
        apply (mv_ext n _ _ _ (bind get_sh (fun sh => bind (put_sh (mksh ((full, v) :: sh_vals sh) (sh_open sh) (sh_log sh) (sh_g sh))) (fun _ => rest v)))
                 (bind get_sh (fun sh => bind (put_sh (mksh ((full, v) :: sh_vals sh) (sh_open sh) (sh_log sh) (sh_g sh))) (fun _ => rest v))));
          [reflexivity|reflexivity|].
        apply (mv_upd n _ (fun sh => mksh ((full, v) :: sh_vals sh) (sh_open sh) (sh_log sh) (sh_g sh)) (fun _ _ => rest v) (fun _ _ => rest v));
          [intros sh'; apply incl_refl|intros _ _; apply R].
      * intros T C v s. unfold lg. destruct storing; cbn; (split; [reflexivity|]; split; [apply incl_tl, incl_refl|]);
          exists full, v; (split; [exact (Hcp _ _ C Cn)|rewrite T; left; reflexivity]).
Qed.

Definition lp (n : N) (p : list (value * N * N) * list binop) := (map (lv n) (fst p), snd p).
Definition LM (q : N) (n : nat) : Prop :=
  (forall a b c d e f, mv q idm (parse_value fs li n a b c d e f) (parse_value fs' li' n a (b + q) c d e f)) /\
  (forall a b c d e, mv q (lp q) (parse_ops fs li n a b c d e) (parse_ops fs' li' n a b c (map (lv q) d) e)) /\
  (forall a b c d, mv q idm (parse_unary_op fs li n a b c d) (parse_unary_op fs' li' n a b c d)) /\
  (forall a, mv q idm (parse_obj fs li n a) (parse_obj fs' li' n a)) /\
  (forall a b c d, mv q idm (pairs_loop fs li n a b c d) (pairs_loop fs' li' n a b c d)) /\
  (forall a b c d, mv q idm (parse_field_value_pair fs li n a b c d) (parse_field_value_pair fs' li' n a b c d)) /\
  (forall a b, mv q idm (parse_arr fs li n a b) (parse_arr fs' li' n a b)) /\
  (forall a b c d e, mv q idm (arr_loop fs li n a b c d e) (arr_loop fs' li' n a b c d e)) /\
  (forall a b, mv q idm (parse_tup fs li n a b) (parse_tup fs' li' n a b)) /\
  (forall a b c, mv q idm (tup_loop fs li n a b c) (tup_loop fs' li' n a b c)) /\
  (forall a b c d e, mv q idm (parse_variable fs li n a b c d e) (parse_variable fs' li' n a (b + q) c d e)) /\
  (forall a b, mv q idm (parse_include fs li n a b) (parse_include fs' li' n a b)).
Lemma LM_all q n : LM q n.
Proof.
  induction n as [|n (H1&H2&H3&H4&H5&H6&H7&H8&H9&H10&H11&H12)].
  - unfold LM. repeat (split; [intros; apply mv_nofuel|]). intros; apply mv_nofuel.
  -
    Ltac use12 H1 H2 H3 H4 H5 H6 H7 H8 H9 H10 H11 H12 :=
      repeat (first [k1|apply H1|apply H3|apply H4|apply H5|apply H6|apply H7|apply H8|apply H9|apply H10|apply H11|apply H12
        |apply mv_str|apply mv_numeric|apply mv_field|apply mv_binop|apply mv_low|apply mv_finish]).
    unfold LM.
    split; [intros; rewrite !parse_value_S; use12 H1 H2 H3 H4 H5 H6 H7 H8 H9 H10 H11 H12|].
    { apply (mv_bind q (lp q)); [apply (H2 a d e [(a1, b, c)] [])|]. intros [vals ops]. cbn [lp fst snd].
      apply mv_bind_id; [ks|]. intros _. destruct vals as [|[[v l] k] vals]; cbn [map lv]; [ks|apply mv_low]. }
    assert (H2' : forall a b c d e d', d' = map (lv q) d -> mv q (lp q) (parse_ops fs li n a b c d e) (parse_ops fs' li' n a b c d' e)) by (intros; subst; apply H2).
    split; [intros; rewrite !parse_ops_S; use12 H1 H2 H3 H4 H5 H6 H7 H8 H9 H10 H11 H12; apply H2'; rewrite map_app; reflexivity|].
    split; [intros; rewrite !parse_unary_op_S; use12 H1 H2 H3 H4 H5 H6 H7 H8 H9 H10 H11 H12|].
    split; [intros; rewrite !parse_obj_S; use12 H1 H2 H3 H4 H5 H6 H7 H8 H9 H10 H11 H12|].
    split; [intros; rewrite !pairs_loop_S; use12 H1 H2 H3 H4 H5 H6 H7 H8 H9 H10 H11 H12|].
    split; [intros; rewrite !parse_field_value_pair_S; use12 H1 H2 H3 H4 H5 H6 H7 H8 H9 H10 H11 H12|].
    split; [intros; rewrite !parse_arr_S; use12 H1 H2 H3 H4 H5 H6 H7 H8 H9 H10 H11 H12|].
    split; [intros; rewrite !arr_loop_S; use12 H1 H2 H3 H4 H5 H6 H7 H8 H9 H10 H11 H12|].
    split; [intros; rewrite !parse_tup_S; use12 H1 H2 H3 H4 H5 H6 H7 H8 H9 H10 H11 H12|].
    split; [intros; rewrite !tup_loop_S; use12 H1 H2 H3 H4 H5 H6 H7 H8 H9 H10 H11 H12|].
    split; [intros; rewrite !parse_variable_S; cbv zeta; use12 H1 H2 H3 H4 H5 H6 H7 H8 H9 H10 H11 H12|].
    { apply (mv_scan q (fun r l k => scan_var r l k a1)). intros. apply var_low. }
    intros; rewrite !parse_include_S. destruct (_ <? _); [ks|].
    apply mv_bind_id; [ks|]. intros c. apply mv_bind_id; [ks|]. intros _. apply mv_bind_id; [ks|]. intros found. destruct (negb found); [ks|].
    apply mv_pos. intros l k. cbv beta iota. apply mv_bind_id; [apply H1|]. intros v. apply mv_bind_id; [ks|]. intros tok.
    apply (mv_bind q (fun p : inc_ty * value * N * N => let '(ty, v, l, k) := p in (ty, v, l + q, k))).
    + use12 H1 H2 H3 H4 H5 H6 H7 H8 H9 H10 H11 H12.
    + intros [[[ty v2] l2] k2]. cbv beta iota. use12 H1 H2 H3 H4 H5 H6 H7 H8 H9 H10 H11 H12.
Qed.
Lemma mv_obj_stream q n : mv q idm (parse_obj_stream fs li n) (parse_obj_stream fs' li' n).
Proof. unfold parse_obj_stream. destruct (LM_all q n) as (_&_&_&_&H5&_). ks. apply H5. Qed.
Lemma mv_arr_stream q n : mv q idm (parse_arr_stream fs li n) (parse_arr_stream fs' li' n).
Proof.
  unfold parse_arr_stream. ks. generalize (@nil value) TAny true.
  induction n as [|n IH]; intros vs t any; cbn [arr_file_loop]; ks; [apply (LM_all q n)|apply IH].
Qed.
Lemma mv_tup_stream q n : mv q idm (parse_tup_stream fs li n) (parse_tup_stream fs' li' n).
Proof.
  unfold parse_tup_stream. ks. generalize (@nil value).
  induction n as [|n IH]; intros vs; cbn [tup_file_loop]; ks; [apply (LM_all q n)|apply IH].
Qed.
End Files.

(** ** Streams *)
Lemma advs_header w : header w -> advs w (1, 1) = (1 + lines w, 1).
Proof.
  intros [_ [->|[u ->]]]; [reflexivity|]. 
  assert (L : forall v l k, fst (advs v (l, k)) = l + lines v).
  { unfold lines. induction v as [|c v IH]; intros l k; [cbn; lia|]. rewrite advs_cons. cbn [fst snd]. unfold adv. cbn [count_occ].
    destruct (N.eq_dec c c_nl) as [->|D]; [rewrite N.eqb_refl, IH; lia|]. apply N.eqb_neq in D. rewrite D. apply IH. }
  specialize (L (u ++ [c_nl]) 1 1). rewrite advs_app in *. destruct (advs u (1, 1)) as [l k]. cbn in *. congruence.
Qed.
Lemma find_header w text file sh : header w -> find_char (mkst file (w ++ text) 1 1 [] sh) = find_char (mkst file text (1 + lines w) 1 [] sh).
Proof.
  intros H. unfold find_char. cbn [s_rest s_line s_col]. rewrite (find_ws_at w text (proj1 H)), (advs_header w H). cbn [fst snd].
  destruct (find_char_l text _ _ _) as [b [[r l] k]]. reflexivity.
Qed.
Definition starts_with_find {A} (m : M A) : Prop := exists f, forall s, m s = bind find_char f s.
Lemma stream_rel {A} (m m1 m2 : M A) file text w sh : header w -> sft file = lines w -> mv (lines w) idm m m1 -> upto m1 m2 -> starts_with_find m2 ->
  incl (sh_log sh) (sh_log (snd (run_stream m file text sh))) /\
  (fst (run_stream m file text sh) = NoFuel \/ hit (sh_log (snd (run_stream m file text sh))) \/
   (snd (run_stream m2 file (w ++ text) sh) = snd (run_stream m file text sh) /\
    orel idm (fst (run_stream m file text sh)) (fst (run_stream m2 file (w ++ text) sh)))).
Proof.
  intros Hw Es Hm Hu [f Hf]. unfold run_stream.
  destruct (Hm (mkst file text 1 1 [] sh) Es) as (_ & I1 & R1). unfold lg in *. cbn [s_sh] in I1.
  rewrite (Hf (mkst file (w ++ text) 1 1 [] sh)). unfold bind at 1 2. rewrite (find_header w text file sh Hw).
  fold (bind find_char f (mkst file text (1 + lines w) 1 [] sh)). rewrite <- Hf.
  change (mkst file text (1 + lines w) 1 [] sh) with (low (lines w) (mkst file text 1 1 [] sh)).
  destruct (m (mkst file text 1 1 [] sh)) as [o s]. cbn [fst snd] in *. split; [exact I1|].
  destruct R1 as [R1|[R1|[R1 R2]]]; [auto|auto|]. right. right.
  destruct (Hu (low (lines w) (mkst file text 1 1 [] sh))) as [N|E].
  - rewrite N in R2. destruct o; contradiction.
  - rewrite E. destruct (m1 _) as [o1 s1]. cbn [fst snd] in *. subst s1. split; [reflexivity|exact R2].
Qed.
Lemma obj_starts fs li n : starts_with_find (parse_obj_stream fs li n).
Proof. eexists. reflexivity. Qed.
Lemma arr_starts fs li n : starts_with_find (parse_arr_stream fs li (S n)).
Proof. eexists. intros s. unfold parse_arr_stream. cbn [arr_file_loop]. rewrite bind_bind. reflexivity. Qed.
Lemma tup_starts fs li n : starts_with_find (parse_tup_stream fs li (S n)).
Proof. eexists. intros s. unfold parse_tup_stream. cbn [tup_file_loop]. rewrite bind_bind. reflexivity. Qed.
End H.

(** ** Projects *)
Section Proj.
Context `{U : Unicode}.
Variable pre : nat -> str.
Variables fs fs' : fsys.
Hypothesis HD : with_headers pre fs fs'.
Variable top : N.
(** the file with the canonical path [c] has a header *)
Definition has_header (c : str) : Prop := exists i e, nth_error (fs_files fs) i = Some e /\ fe_canon e = Some c /\ pre i <> [].
Let sft := shift_of pre fs top.
Definition cp (p : str) : Prop := exists i e, fs_entry fs p = Some (i, e) /\ pre i <> [].
Lemma headed_entry p : match fs_entry fs p with
  | Some (i, e) => exists e', fs_entry fs' p = Some (i, e') /\ fe_canon e' = fe_canon e /\ fe_read e' = match fe_read e with inl t => inl (pre i ++ t) | inr m => inr m end
  | None => fs_entry fs' p = None
  end.
Proof.
  destruct HD as (_ & HR & _ & HL & HE). unfold fs_entry. rewrite HR. destruct (path_parent p); [|reflexivity]. destruct (fs_resolve fs p) as [i|]; [|reflexivity].
  destruct (nth_error (fs_files fs) i) as [e|] eqn:N.
  - destruct (HE i e N) as (e' & N' & X). rewrite N'. eauto.
  - apply nth_error_None in N. rewrite <- HL in N. apply nth_error_None in N. rewrite N. reflexivity.
Qed.
Lemma headed_is_file p : is_file fs p = is_file fs' p.
Proof. pose proof (headed_entry p) as H. unfold is_file. destruct (fs_entry fs p) as [[i e]|]; [destruct H as (e' & -> & _)|rewrite H]; reflexivity. Qed.
Lemma headed_canon p : canon fs p = canon fs' p.
Proof. pose proof (headed_entry p) as H. unfold canon. destruct (fs_entry fs p) as [[i e]|]; [destruct H as (e' & -> & H & _); auto|rewrite H; reflexivity]. Qed.
Lemma entry_nth p i e : fs_entry fs p = Some (i, e) -> nth_error (fs_files fs) i = Some e.
Proof. unfold fs_entry. destruct (path_parent p), (fs_resolve fs p) as [j|]; try discriminate. destruct (nth_error (fs_files fs) j) eqn:N; [|discriminate]. intros [= <- <-]. exact N. Qed.
Lemma cp_canon p c : cp p -> canon fs p = Some c -> has_header c.
Proof. intros (i & e & E & P). unfold canon. rewrite E. intros C. exists i, e. split; [exact (entry_nth p i e E)|auto]. Qed.
Lemma sft_entry p i e : fs_entry fs p = Some (i, e) -> sft (Some p) = lines (pre i).
Proof. intros E. unfold sft, shift_of. rewrite E. reflexivity. Qed.
Lemma head_open p sh : match open_file fs p sh with
  | (inr e, h) => open_file fs' p sh = (inr e, h) /\ further_down sft e e
  | (inl t, h) => exists i e, fs_entry fs p = Some (i, e) /\ open_file fs' p sh = (inl (pre i ++ t), h)
  end /\ incl (sh_log sh) (sh_log (snd (open_file fs p sh))).
Proof.
  pose proof (headed_entry p) as H. unfold open_file. destruct (fs_entry fs p) as [[i e]|] eqn:E.
  - destruct H as (e' & -> & C & R). rewrite C, R. destruct (fe_read e) as [t|m]; (split; [|apply incl_tl, incl_refl]).
    + exists i, e. split; reflexivity.
    + split; [reflexivity|]. apply (moved_kind sft None (IoErrorKind m)). exact I.
  - rewrite H. split; [|apply incl_refl]. destruct HD as (_ & _ & HO & _). rewrite HO. split; [reflexivity|].
    apply (moved_kind sft None (IoErrorKind (fs_open_err fs p))). exact I.
Qed.
Lemma fuel_le w t : (stream_fuel t <= stream_fuel (w ++ t))%nat.
Proof. unfold stream_fuel. rewrite app_length. lia. Qed.
Lemma load_rel k : forall ty p sh, lrel sft has_header (load_file fs k) (load_file fs' k) cp ty p sh.
Proof.
  induction k as [|k IH]; intros ty p sh; unfold lrel; [split; [apply incl_refl|left; reflexivity]|].
  cbn [load_file]. destruct (head_open p sh) as [H I0]. destruct (open_file fs p sh) as [[t|e] h].
  - destruct H as (i & e & E & ->). cbn [snd] in I0.
    assert (Hi : header (pre i)) by apply HD.
    assert (D : forall (A : Type) (wr : A -> value) (m m1 m2 : M A), mv sft has_header (lines (pre i)) (fun x => x) m m1 -> upto m1 m2 -> starts_with_find m2 ->
      forall r r', r = done_file fs p (let '(o, sh) := run_stream m (Some p) t h in (omap wr o, sh)) ->
      r' = done_file fs' p (let '(o, sh) := run_stream m2 (Some p) (pre i ++ t) h in (omap wr o, sh)) ->
      incl (sh_log sh) (sh_log (snd r)) /\ (fst r = NoFuel \/ hit has_header (sh_log (snd r)) \/ (snd r' = snd r /\ orel sft (fun x => x) (fst r) (fst r')) \/
        (ty = IStr /\ cp p /\ exists v, fst r = Ok v))).
    { intros A wr m m1 m2 M1 M2 M3 r r' -> ->.
      destruct (stream_rel sft has_header m m1 m2 (Some p) t (pre i) h Hi (sft_entry p i e E) M1 M2 M3) as [J1 J2].
      destruct (run_stream m (Some p) t h) as [o h1]. destruct (run_stream m2 (Some p) (pre i ++ t) h) as [o' h1']. cbn [fst snd] in *.
      unfold done_file. rewrite <- headed_canon. split.
      - eapply incl_tran; [exact I0|]. destruct o; cbn; [apply incl_tl|..]; exact J1.
      - destruct J2 as [->|[J2|[-> J2]]]; [left; reflexivity|right; left|right; right; left].
        + destruct o; cbn; try exact J2. eapply hit_incl; [|exact J2]. apply incl_tl, incl_refl.
        + destruct o, o'; cbn [orel] in J2; try contradiction; cbn; [subst|..]; auto. }
    destruct ty.
    + eapply (D _ VObj); [exact (mv_obj_stream sft has_header fs fs' _ _ cp headed_is_file headed_canon cp_canon IH _ (stream_fuel t))
        |apply upto_obj_stream; [intros; right; reflexivity|apply (fuel_le (pre i))]|apply obj_starts|reflexivity|reflexivity].
    + cbn. split; [apply incl_tl; exact I0|]. right. right. destruct (pre i) as [|c r] eqn:P.
      * left. rewrite <- headed_canon. split; reflexivity.
      * right. split; [reflexivity|]. split; [|eauto]. exists i, e. split; [exact E|]. rewrite P. discriminate.
    + eapply (D _ VArr); [exact (mv_arr_stream sft has_header fs fs' _ _ cp headed_is_file headed_canon cp_canon IH _ (stream_fuel t))
        |apply upto_arr_stream; [intros; right; reflexivity|apply (fuel_le (pre i))]|unfold stream_fuel; rewrite Nat.add_comm; apply arr_starts|reflexivity|reflexivity].
    + eapply (D _ VTup); [exact (mv_tup_stream sft has_header fs fs' _ _ cp headed_is_file headed_canon cp_canon IH _ (stream_fuel t))
        |apply upto_tup_stream; [intros; right; reflexivity|apply (fuel_le (pre i))]|unfold stream_fuel; rewrite Nat.add_comm; apply tup_starts|reflexivity|reflexivity].
  - destruct H as [-> H]. cbn [fst snd] in *. split; [exact I0|]. right. right. left. split; [reflexivity|exact H].
Qed.
Lemma headed_fuel : inc_fuel fs' = inc_fuel fs.
Proof. unfold inc_fuel. destruct HD as (_ & _ & _ & -> & _). reflexivity. Qed.
Definition same_but_lower {A} (r r' : outcome A * shared) : Prop :=
  fst r = NoFuel \/ hit has_header (sh_log (snd r)) \/ (snd r' = snd r /\ orel sft (fun x => x) (fst r) (fst r')).
Lemma str_lower w g text : header w -> top = lines w -> same_but_lower (parse_obj_str fs g text) (parse_obj_str fs' g (w ++ text)).
Proof.
  intros Hw T. unfold parse_obj_str. rewrite headed_fuel.
  refine (proj2 (stream_rel sft has_header _ _ _ None text w (init_sh g) Hw T _ _ _)).
  - exact (mv_obj_stream sft has_header fs fs' _ _ cp headed_is_file headed_canon cp_canon (load_rel _) _ (stream_fuel text)).
  - apply upto_obj_stream; [intros; right; reflexivity|apply fuel_le].
  - apply obj_starts.
Qed.
Lemma file_lower g path : same_but_lower (parse_obj_file fs g path) (parse_obj_file fs' g path).
Proof.
  unfold parse_obj_file. rewrite headed_fuel. destruct (head_open path (init_sh g)) as [H _]. destruct (open_file fs path (init_sh g)) as [[t|e] h].
  - destruct H as (i & e & E & ->).
    refine (proj2 (stream_rel sft has_header _ _ _ (Some path) t (pre i) h ltac:(apply HD) (sft_entry path i e E) _ _ _)).
    + exact (mv_obj_stream sft has_header fs fs' _ _ cp headed_is_file headed_canon cp_canon (load_rel _) _ (stream_fuel t)).
    + apply upto_obj_stream; [intros; right; reflexivity|apply fuel_le].
    + apply obj_starts.
  - destruct H as [-> H]. right. right. split; [reflexivity|exact H].
Qed.
End Proj.
