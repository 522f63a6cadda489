(** * LevelsProofs: how deep the types are that a load meets. *)
From Verif Require Export CountProofs AgreeBase StackSpec Levels.
From Coq Require String.
Import String.StringSyntax.
Open Scope N_scope.

Lemma brackets_app a b : brackets (a ++ b) = brackets a + brackets b.
Proof. unfold brackets. rewrite filter_app, app_length. lia. Qed.
Lemma brackets_cons c t : brackets (c :: t) = (if (c =? c_lbrack) || (c =? c_lparen) then 1 else 0) + brackets t.
Proof. unfold brackets. cbn [filter]. destruct (_ || _); cbn [length]; lia. Qed.
Definition brk (s : pstate) : N := brackets (s_rest s).

(** ** Types *)
Lemma max_fold l K : fold_right N.max 0 l <= K <-> Forall (fun x => x <= K) l.
Proof.
  induction l as [|x l IH]; cbn [fold_right]; [split; [constructor|lia]|]. rewrite Forall_cons_iff, <- IH. lia.
Qed.
Fixpoint specific_nested (a : ty) : forall b t any, most_specific a b = Some (t, any) -> nested t <= N.max (nested a) (nested b).
Proof.
  intros b t any. destruct a as [| | | | | |ta|la|].
  1-6,9: destruct b; cbn [most_specific]; intros H; repeat match type of H with (if ?x then _ else _) = _ => destruct x end; try discriminate H; inversion H; subst; cbn; lia.
  - destruct b; cbn [most_specific]; try discriminate; intros H; [inversion H; subst; cbn [nested]; lia|].
    destruct (most_specific ta b) as [[t' any']|] eqn:E; [|discriminate]. inversion H; subst. apply specific_nested in E. cbn [nested]. lia.
  - destruct b as [| | | | | | |lb|]; cbn [most_specific]; try discriminate; intros H; [inversion H; subst; cbn [nested]; lia|].
    destruct (Nat.eqb (length la) (length lb)); [|discriminate].
    match type of H with match ?g la lb false with _ => _ end = _ => set (zip := g) in H end.
    assert (Z : forall la lb any ts any2, zip la lb any = Some (ts, any2) ->
      fold_right N.max 0 (map nested ts) <= N.max (fold_right N.max 0 (map nested la)) (fold_right N.max 0 (map nested lb))).
    { clear - specific_nested. induction la as [|x la IH]; intros lb any ts any2; cbn [zip]; [intros K; inversion K; subst; cbn; lia|].
      destruct lb as [|y lb]; [intros K; inversion K; subst; cbn; lia|].
      destruct (most_specific x y) as [[t a1]|] eqn:E; [|discriminate].
      destruct (zip la lb _) as [[ts' a2]|] eqn:E2; [|discriminate]. intros K; inversion K; subst.
      apply IH in E2. apply specific_nested in E. cbn [map fold_right]. lia. }
    destruct (zip la lb false) as [[ts any2]|] eqn:E; [|discriminate]. inversion H; subst. apply Z in E. cbn [nested]. lia.
Qed.
Lemma step_nested t any t' r any' : arr_check_step t any t' = inl (r, any') -> nested r <= N.max (nested t) (nested t').
Proof.
  unfold arr_check_step. destruct any.
  - destruct (most_specific t t') as [[x y]|] eqn:E; [|discriminate]. intros K; inversion K; subst. eapply specific_nested; eauto.
  - destruct (negb _); [discriminate|]. intros K; inversion K; subst. lia.
Qed.

(** ** Values: no part of [v] has a type of more than [K] levels. *)
Definition flat (K : N) (v : value) : Prop := forall p, part p v -> levels p <= K.
Definition flats (K : N) (vs : list value) : Prop := Forall (flat K) vs.
Definition flatp (K : N) (ps : list (str * value)) : Prop := Forall (fun p => flat K (snd p)) ps.
Definition flato (K : N) (o : option obj) : Prop := forall p, o = Some p -> flat K (VObj p).
Lemma flat_le K K' v : K <= K' -> flat K v -> flat K' v.
Proof. intros L H p P. specialize (H p P). lia. Qed.
Lemma flats_le K K' v : K <= K' -> flats K v -> flats K' v.
Proof. intros L. apply Forall_impl. intros a. apply flat_le; auto. Qed.
Lemma flatp_le K K' v : K <= K' -> flatp K v -> flatp K' v.
Proof. intros L. apply Forall_impl. intros a. apply flat_le; auto. Qed.
Lemma flato_le K K' v : K <= K' -> flato K v -> flato K' v.
Proof. intros L H p E. eapply flat_le; eauto. Qed.
Lemma flat_levels K v : flat K v -> levels v <= K.
Proof. intros H. apply H. constructor. Qed.
Lemma flats_levels K vs : flats K vs -> levels_all vs <= K.
Proof. intros H. unfold levels_all. apply max_fold. apply Forall_map. eapply Forall_impl; [|exact H]. intros a. apply flat_levels. Qed.
Lemma flat_scalar K v : match v with VArr _ | VTup _ | VObj _ => False | _ => True end -> flat K v.
Proof. intros H p P. destruct v; try destruct H; inversion P; subst; unfold levels; cbn; lia. Qed.
Lemma flat_arr K id t vs : flats K vs -> nested t + 1 <= K -> flat K (VArr (MkArr id t vs)).
Proof.
  intros H L p P. inversion P; subst; [unfold levels; cbn [get_type nested arr_inner_type tup_types]; lia|]. eapply Forall_forall in H; eauto.
Qed.
Lemma flat_tup K id vs : flats K vs -> levels_all vs + 1 <= K -> flat K (VTup (MkTup id (map get_type vs) vs)).
Proof.
  intros H L p P. inversion P; subst.
  - unfold levels at 1. cbn [get_type nested arr_inner_type tup_types]. rewrite map_map. unfold levels_all in L.
    change (map (fun x => nested (get_type x)) vs) with (map levels vs). lia.
  - eapply Forall_forall in H; eauto.
Qed.
Lemma flat_obj K id ps par : flatp K ps -> flato K par -> flat K (VObj (MkObj id ps par)).
Proof.
  intros H L p P. inversion P; subst; [unfold levels; cbn; lia| |].
  - eapply Forall_forall in H; [|eassumption]. apply H. assumption.
  - eapply L; eauto.
Qed.
Lemma flat_elem_arr K id t vs v : flat K (VArr (MkArr id t vs)) -> In v vs -> flat K v.
Proof. intros H I p P. apply H. eapply part_arr; eauto. Qed.
Lemma flat_elem_tup K id t vs v : flat K (VTup (MkTup id t vs)) -> In v vs -> flat K v.
Proof. intros H I p P. apply H. eapply part_tup; eauto. Qed.
Lemma flat_fields K o : flat K (VObj o) -> flatp K (obj_pairs o).
Proof. intros H. apply Forall_forall. intros [f v] I p P. apply H. destruct o. eapply part_field; eauto. Qed.
Lemma flatp_assoc K ps f v : flatp K ps -> assoc f ps = Some v -> flat K v.
Proof. intros H A. apply assoc_some in A as (l & r & -> & _). apply Forall_app in H as [_ H]. inversion H; subst. auto. Qed.
Lemma flat_empty K i : flat K (VObj (obj_empty i)).
Proof. apply flat_obj; [constructor|intros ? H; discriminate H]. Qed.

(** the values in the state *)
Definition env (K : N) (s : pstate) : Prop := flatp K (s_globals s) /\ flatp K (sh_vals (s_sh s)).
Lemma env_le K K' s : K <= K' -> env K s -> env K' s.
Proof. intros L [A B]. split; eapply flatp_le; eauto. Qed.

(** ** Leaves *)
Definition calm {A} (m : M A) : Prop := forall s,
  (exists pre, s_rest s = pre ++ s_rest (snd (m s))) /\ s_globals (snd (m s)) = s_globals s /\
  sh_vals (s_sh (snd (m s))) = sh_vals (s_sh s).
Lemma calm_bind {A B} (m : M A) (f : A -> M B) : calm m -> (forall a, calm (f a)) -> calm (bind m f).
Proof.
  intros H F s. specialize (H s). unfold bind. destruct (m s) as [[a|e| |] s']; cbn [snd] in *; auto.
  destruct H as ((p1 & E1) & G1 & V1). destruct (F a s') as ((p2 & E2) & G2 & V2). repeat split; try congruence.
  exists (p1 ++ p2). rewrite <- app_assoc, <- E2. exact E1.
Qed.
Lemma calm_same {A} (m : M A) : (forall s, s_rest (snd (m s)) = s_rest s /\ s_globals (snd (m s)) = s_globals s /\
  sh_vals (s_sh (snd (m s))) = sh_vals (s_sh s)) -> calm m.
Proof. intros H s. destruct (H s) as (A1 & A2 & A3). repeat split; auto. exists []. cbn. congruence. Qed.
Lemma calm_scan {A} (f : str -> N -> N -> A * (str * N * N)) :
  (forall r l k x q, f r l k = (x, q) -> exists con, scanned r l k con q) ->
  calm (fun s => let '(x, (r, l, k)) := f (s_rest s) (s_line s) (s_col s) in (Ok x, set_stream s r l k)).
Proof.
  intros H s. destruct (f (s_rest s) (s_line s) (s_col s)) as [x [[r l] k]] eqn:E. apply H in E as (con & E & _).
  repeat split; auto. exists con. exact E.
Qed.
Lemma calm_next : calm next.
Proof.
  intros s. unfold next. destruct (s_rest s) as [|c r] eqn:R; [repeat split; exists []; cbn; congruence|].
  destruct (adv _ _ _). repeat split. exists [c]. reflexivity.
Qed.
Lemma calm_find : calm find_char.
Proof. apply (calm_scan (fun r l k => find_char_l r l k false)). intros r l k x q E. apply find_char_l_spec in E as (con & E & _). eauto. Qed.
Lemma calm_sentinel k : calm (sentinel k).
Proof. apply calm_same. intros s. unfold sentinel. destruct (g_sent _ _); auto. Qed.
Lemma calm_col : calm col_minus_1.
Proof. apply calm_same. intros s. unfold col_minus_1. destruct (_ =? _); auto. Qed.
Ltac calm1 :=
  match goal with
  | |- calm (bind _ _) => apply calm_bind; [|intros]
  | |- calm (if ?b then _ else _) => destruct b
  | |- calm (match ?x with _ => _ end) => destruct x
  | |- calm (let _ := _ in _) => cbv zeta
  | |- calm next => apply calm_next
  | |- calm find_char => apply calm_find
  | |- calm (sentinel _) => apply calm_sentinel
  | |- calm col_minus_1 => apply calm_col
  | |- calm (fun s => let '(x, q) := scan_str _ _ _ ?a ?b in _) =>
      apply (calm_scan (fun r l k => scan_str r l k a b)); let E := fresh in intros ? ? ? ? ? E; apply scan_str_spec in E as (? & E & _); eauto
  | |- calm (fun s => let '(x, q) := scan_numeric _ _ _ ?a ?b ?c ?d in _) =>
      apply (calm_scan (fun r l k => scan_numeric r l k a b c d)); let E := fresh in intros ? ? ? ? ? E; apply scan_numeric_spec in E as (? & E & _); eauto
  | |- calm (fun s => let '(x, q) := scan_field _ _ _ ?a ?b in _) =>
      apply (calm_scan (fun r l k => scan_field r l k a b)); let E := fresh in intros ? ? ? ? ? E; apply scan_field_spec in E as (? & E & _); eauto
  | |- calm (fun s => let '(x, q) := scan_var _ _ _ ?a in _) =>
      apply (calm_scan (fun r l k => scan_var r l k a)); let E := fresh in intros ? ? ? ? ? E; apply scan_var_spec in E as (? & E & _); eauto
  | |- calm (new_obj _ _) => unfold new_obj
  | |- calm (new_arr _ _) => unfold new_arr
  | |- calm (new_tup _) => unfold new_tup
  | |- calm (unwrap _) => unfold unwrap
  | |- calm (unwrap_o _) => unfold unwrap_o
  | |- calm (assert_ _) => unfold assert_
  | |- calm peek_unwrap => unfold peek_unwrap
  | |- calm next_unwrap => unfold next_unwrap
  | |- calm (check_value_end _) => unfold check_value_end
  | |- calm (parse_field _ _) => unfold parse_field
  | |- calm parse_str => unfold parse_str
  | |- calm (parse_bigint _) => unfold parse_bigint
  | |- calm (parse_numeric _ _) => unfold parse_numeric
  | |- calm (unary_op_on_value _ _ _ _) => unfold unary_op_on_value
  | |- calm (binary_op_on_values _ _ _ _ _) => unfold binary_op_on_values
  | |- calm (include_token _ _ _) => unfold include_token
  | |- calm (index_by _ _ _ _) => unfold index_by
  | |- calm (lookup_variable _ _ _ _ _) => unfold lookup_variable
  | |- calm _ => apply calm_same; let s := fresh in intros s; solve [auto]
  end.
Ltac calms := solve [repeat calm1].
Section L.
Context `{U : Unicode}.
Lemma calm_env {A} (m : M A) K s : calm m -> env K s -> env K (snd (m s)).
Proof. intros C [E1 E2]. destruct (C s) as (_ & G & V). unfold env. rewrite G, V. split; assumption. Qed.
Lemma calm_brk {A} (m : M A) s : calm m -> brk (snd (m s)) <= brk s.
Proof. intros C. destruct (C s) as ((pre & E) & _). unfold brk. rewrite E, brackets_app. lia. Qed.

(** what leaves return *)
Definition gives {A} (m : M A) (P : A -> Prop) : Prop := forall s a q, m s = (Ok a, q) -> P a.
Lemma gives_bind {A B} (m : M A) (f : A -> M B) P Q : gives m P -> (forall a, P a -> gives (f a) Q) -> gives (bind m f) Q.
Proof. intros H F s b q. unfold bind. destruct (m s) as [[a|e| |] s'] eqn:E; try discriminate. apply F. eapply H; eauto. Qed.
Lemma gives_bind0 {A B} (m : M A) (f : A -> M B) Q : (forall a, gives (f a) Q) -> gives (bind m f) Q.
Proof. intros F. eapply (gives_bind m f (fun _ => True)); auto. intros s a q _. exact I. Qed.
Lemma gives_ret {A} (a : A) (P : A -> Prop) : P a -> gives (ret a) P.
Proof. intros H s b q K. inversion K; subst. auto. Qed.
Lemma gives_fail {A} (m : M A) P : (forall s, match m s with (Ok _, _) => False | _ => True end) -> gives m P.
Proof. intros H s a q E. specialize (H s). rewrite E in H. destruct H. Qed.
Lemma gives_str K : gives parse_str (flat K).
Proof. unfold parse_str. do 3 (apply gives_bind0; intros). destruct a1; [apply gives_ret, flat_scalar; exact I|..]; repeat (apply gives_bind0; intros); apply gives_fail; intros; exact I. Qed.
Ltac gv :=
  match goal with
  | |- gives (bind _ _) _ => apply gives_bind0; intros
  | |- gives (ret _) _ => apply gives_ret; try (apply flat_scalar; exact I)
  | |- gives (if ?b then _ else _) _ => destruct b
  | |- gives (match ?x with _ => _ end) _ => let E := fresh "E" in destruct x eqn:E
  | |- gives (let _ := _ in _) _ => cbv zeta
  | |- gives (fail _) _ => apply gives_fail; intros ?; exact I
  | |- gives (raise _) _ => apply gives_fail; intros ?; exact I
  | |- gives panic _ => apply gives_fail; intros ?; exact I
  end.
Lemma gives_numeric l k K : gives (parse_numeric l k) (flat K).
Proof. unfold parse_numeric. repeat gv. Qed.
Lemma gives_unary v op l k K : flat K v -> gives (unary_op_on_value v op l k) (flat K).
Proof. intros H. unfold unary_op_on_value. repeat gv; auto. Qed.
Lemma gives_sentinel k K : gives (sentinel k) (fun o => flat K (VObj o)).
Proof. intros s a q. unfold sentinel. destruct (g_sent _ _); intros E; inversion E; subst; apply flat_empty. Qed.
Lemma gives_lookup ps var g l k K s v q : flatp K ps -> env K s -> lookup_variable ps var g l k s = (Ok v, q) -> flat K v.
Proof.
  intros HP [HG _]. unfold lookup_variable.
  repeat match goal with |- (if str_eqb ?a ?b then _ else _) _ = _ -> _ => destruct (str_eqb a b) end.
  1-3: intros E; inversion E; subst; apply flat_scalar; exact I.
  1-4: unfold bind; match goal with |- (match sentinel ?k0 ?s0 with _ => _ end) = _ -> _ => pose proof (gives_sentinel k0 K s0) as G; destruct (sentinel k0 s0) as [[o|e| |] s'] eqn:Es; try discriminate;
    intros E; inversion E; subst; eapply G; eauto end.
  1: discriminate.
  destruct g.
  - unfold bind, get_globals. destruct (assoc var (s_globals s)) eqn:E; [|discriminate]. intros J; inversion J; subst. eapply flatp_assoc; [|exact E]; assumption.
  - destruct (assoc var ps) eqn:E; [|discriminate]. intros J; inversion J; subst. eapply flatp_assoc; [|exact E]; assumption.
Qed.
Lemma gives_index_arr a idx l k K : flat K (VArr a) -> gives (index_by (arr_get a) idx l k) (flat K).
Proof.
  intros H. unfold index_by. repeat gv. destruct a as [id t vs]. eapply flat_elem_arr; eauto.
  match goal with E : arr_get _ _ = OOk _ |- _ => unfold arr_get in E; destruct (_ <=? _) in E; [discriminate|]; cbn [arr_values] in E;
    destruct (nth_error _ _) eqn:E2; [|discriminate]; inversion E; subst; eapply nth_error_In; eauto end.
Qed.
Lemma gives_index_tup a idx l k K : flat K (VTup a) -> gives (index_by (tup_get a) idx l k) (flat K).
Proof.
  intros H. unfold index_by. repeat gv. destruct a as [id t vs]. eapply flat_elem_tup; eauto.
  match goal with E : tup_get _ _ = OOk _ |- _ => unfold tup_get in E; destruct (_ <=? _) in E; [discriminate|]; cbn [tup_values] in E;
    destruct (nth_error _ _) eqn:E2; [|discriminate]; inversion E; subst; eapply nth_error_In; eauto end.
Qed.
Lemma gives_arr vs t : gives (new_arr vs t) (fun a => exists i, a = MkArr i t vs).
Proof. unfold new_arr. apply gives_bind0. intros i. apply gives_ret. exists i. reflexivity. Qed.
Lemma gives_tup vs : gives (new_tup vs) (fun a => exists i, a = MkTup i (map get_type vs) vs).
Proof. unfold new_tup. apply gives_bind0. intros i. apply gives_ret. exists i. reflexivity. Qed.
Lemma gives_obj ps par : gives (new_obj ps par) (fun o => exists i, o = MkObj i ps par).
Proof. unfold new_obj. apply gives_bind0. intros i. apply gives_ret. exists i. reflexivity. Qed.
Lemma gives_binary v w op l k K : flat K v -> flat K w -> gives (binary_op_on_values v w op l k) (flat K).
Proof.
  intros Hv Hw. unfold binary_op_on_values.
  eapply (gives_bind _ _ (fun x => match x with (v, t, w, t') => flat K v /\ flat K w /\ (nested t <= K /\ nested t' <= K) end)).
  { destruct (_ && _); [|destruct (_ && _)]; repeat gv; repeat split; try (apply flat_scalar; exact I); auto using flat_levels; try (apply flat_levels; assumption); cbn; lia. }
  intros [[[v' t] w'] t'] (Fv & Fw & L1 & L2). cbv zeta.
  destruct op; try (repeat gv; fail).
  destruct t; try (repeat gv; fail).
  destruct (most_specific (TArr t) t') as [[r any]|] eqn:E; [|repeat gv].
  apply specific_nested in E. eapply (gives_bind _ _ (fun a => flat K (VArr a))).
  { unfold get_arr. destruct v'; cbn; try (apply gives_fail; intros; exact I). apply gives_ret; auto. }
  intros a Fa. eapply (gives_bind _ _ (fun a => flat K (VArr a))).
  { unfold get_arr. destruct w'; cbn; try (apply gives_fail; intros; exact I). apply gives_ret; auto. }
  intros b Fb. destruct r; try (apply gives_fail; intros; exact I). cbn [nested] in *.
  eapply gives_bind; [apply gives_arr|]. intros x (i & ->). apply gives_ret.
  destruct a as [i1 t1 v1], b as [i2 t2 v2]. apply flat_arr; [|lia].
  cbn [arr_values]. apply Forall_app. split; apply Forall_forall; intros x Ix; [eapply (flat_elem_arr _ _ _ _ _ Fa)|eapply (flat_elem_arr _ _ _ _ _ Fb)]; exact Ix.
Qed.
End L.
