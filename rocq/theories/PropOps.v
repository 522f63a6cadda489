(** * PropOps: C25 (nesting limit), C28 (concatenation), C29 (dot indexing). *)
From Verif Require Import PropRound Roundtrip Render ParserEq PropNames PropData PropScope EvalProofs PropLoad.
From Coq Require String.
Import String.StringSyntax.
Open Scope N_scope.

Section P.
Context `{U : Unicode}.

(** ** C28 *)
Lemma ms_arr a b : most_specific (TArr a) (TArr b) =
  match most_specific a b with Some (t, f) => Some (TArr t, f) | None => None end.
Proof. reflexivity. Qed.
Lemma add_arr a b line col s : binary_op_on_values (VArr a) (VArr b) BPlus line col s =
  match most_specific (arr_inner_type a) (arr_inner_type b) with
  | Some (t, _) => bind (new_arr (arr_values a ++ arr_values b) t) (fun r => ret (VArr r)) s
  | None => (Err (mkperr (s_file s) (BinaryOperatorError (TArr (arr_inner_type a)) (TArr (arr_inner_type b)) BPlus line col)), s)
  end.
Proof.
  unfold binary_op_on_values. cbn [get_type ty_eqb andb]. unfold bind at 1. cbn [ret]. unfold ret at 1.
  rewrite ms_arr. destruct (most_specific (arr_inner_type a) (arr_inner_type b)) as [[t f]|]; reflexivity.
Qed.

(** The elements of the first followed by those of the second, with the least common type; an
    operator error iff there is no common type. *)
Theorem C28_arrays a b line col s :
  (forall t, least_spec (arr_inner_type a) (arr_inner_type b) t ->
     exists i s', binary_op_on_values (VArr a) (VArr b) BPlus line col s =
                  (Ok (VArr (MkArr i t (arr_values a ++ arr_values b))), s')) /\
  ((exists t, common_spec (arr_inner_type a) (arr_inner_type b) t) ->
     exists t, least_spec (arr_inner_type a) (arr_inner_type b) t) /\
  (~ (exists t, common_spec (arr_inner_type a) (arr_inner_type b) t) ->
     binary_op_on_values (VArr a) (VArr b) BPlus line col s =
     (Err (mkperr (s_file s) (BinaryOperatorError (get_type (VArr a)) (get_type (VArr b)) BPlus line col)), s)).
Proof.
  rewrite add_arr. pose proof (most_specific_spec (arr_inner_type a) (arr_inner_type b)) as H.
  destruct (most_specific (arr_inner_type a) (arr_inner_type b)) as [[t f]|].
  - destruct H as [H _]. split; [|split].
    + intros u L. rewrite (least_spec_unique _ _ _ _ L H). eexists _, _. reflexivity.
    + eauto.
    + intros N. exfalso. apply N. exists t. apply H.
  - split; [|split].
    + intros u L. exfalso. apply H. exists u. apply L.
    + intros C. contradiction.
    + reflexivity.
Qed.
Theorem C28_strings a b line col s :
  binary_op_on_values (VStr a) (VStr b) BPlus line col s = (Ok (VStr (a ++ b)), s).
Proof. reflexivity. Qed.

(** The same in documents ([ev_op], the operator of C16). *)
Theorem C28_in_documents a b x r y :
  (ev_op BPlus (VArr a) (VArr b) x = Some (r, y) <->
   exists t, least_spec (arr_inner_type a) (arr_inner_type b) t /\
     r = VArr (MkArr (g_next (sh_g (snd x))) t (arr_values a ++ arr_values b)) /\
     fresh x = Some (g_next (sh_g (snd x)), y)) /\
  (forall u v, ev_op BPlus (VStr u) (VStr v) x = Some (VStr (u ++ v), x)).
Proof.
  split; [|reflexivity]. cbn [ev_op]. pose proof (most_specific_spec (arr_inner_type a) (arr_inner_type b)) as H.
  destruct (most_specific (arr_inner_type a) (arr_inner_type b)) as [[t f]|].
  - destruct H as [H _]. destruct x as [gl sh]. unfold ebind, eret. cbn [fresh snd]. split.
    + intros E. inversion E; subst. eauto.
    + intros (u & L & -> & E). inversion E; subst. rewrite (least_spec_unique _ _ _ _ L H). reflexivity.
  - split; [discriminate|]. intros (u & L & _). exfalso. apply H. exists u. apply L.
Qed.
(** Concatenation keeps Arrs well formed. *)
Theorem C28_well_formed v w x r y : wf_value good_names v -> wf_value good_names w ->
  ev_op BPlus v w x = Some (r, y) -> wf_value good_names r.
Proof.
  intros V W E. destruct v as [|b1|a|a|a|a|t1|o1], w as [|b2|b|b|b|b|t2|o2]; try discriminate E;
    cbn [ev_op op_value as_frac elift] in E; unfold eret in E;
    try (match type of E with Some (?u, _) = _ => assert (R : r = u) by congruence; rewrite R end; constructor;
         apply lowest_red).
  - pose proof (most_specific_spec (arr_inner_type a) (arr_inner_type b)) as H.
    destruct (most_specific (arr_inner_type a) (arr_inner_type b)) as [[t f]|]; [|discriminate].
    destruct H as [H _]. unfold ebind, eret in E. destruct x. cbn [fresh] in E. inversion E; subst.
    inversion V as [| | | | |? ? ? V1 V2| |]; subst. inversion W as [| | | | |? ? ? W1 W2| |]; subst. cbn in *.
    constructor; [apply Forall_app; auto|]. rewrite map_app. eapply least_spec_all_app; eauto.
Qed.

(** + is associative up to ==, on all values. *)
Lemma plus_red a b c : Qred (Qred (a + b) + c) = Qred (a + Qred (b + c)).
Proof. apply Qred_complete. rewrite !Qred_correct. symmetry. apply Qplus_assoc. Qed.
Theorem C28_associative a b c x : wf_value good_names a -> wf_value good_names b -> wf_value good_names c ->
  match (do r <- ev_op BPlus a b;; ev_op BPlus r c) x, (do r <- ev_op BPlus b c;; ev_op BPlus a r) x with
  | Some (r1, _), Some (r2, _) => value_eqb r1 r2 = true
  | None, None => True
  | _, _ => False
  end.
Proof.
  intros Wa Wb Wc.
  assert (X : match (do r <- ev_op BPlus a b;; ev_op BPlus r c) x, (do r <- ev_op BPlus b c;; ev_op BPlus a r) x with
  | Some (r1, _), Some (r2, _) => erase r1 = erase r2
  | None, None => True
  | _, _ => False
  end).
  { unfold ebind. destruct x as [gl sh].
    destruct a as [|b1|a|a|a|a|t1|o1], b as [|b2|b|b|b|b|t2|o2]; try exact I;
    destruct c as [|b3|c|c|c|c|t3|o3]; try exact I.
    all: try (cbn [ev_op]; destruct (most_specific (arr_inner_type b) (arr_inner_type c)) as [[? ?]|]; exact I).
    all: try (cbn [ev_op]; destruct (most_specific (arr_inner_type a) (arr_inner_type b)) as [[? ?]|]; exact I).
    all: try (cbn [ev_op op_value as_frac elift]; unfold eret; cbn [ev_op op_value as_frac elift]; unfold eret;
              cbn [erase]; f_equal; first [ lia | rewrite app_assoc; reflexivity |
                apply Qred_complete; rewrite !Qred_correct; unfold Qeq, Qplus; cbn [Qnum Qden];
                rewrite ?Pos2Z.inj_mul; ring ]).
    cbn [ev_op]. pose proof (msj_assoc (Some (arr_inner_type a)) (Some (arr_inner_type b)) (Some (arr_inner_type c))) as M.
    unfold msj in M.
    destruct (most_specific (arr_inner_type b) (arr_inner_type c)) as [[t1 f1]|],
             (most_specific (arr_inner_type a) (arr_inner_type b)) as [[t2 f2]|]; unfold ebind, eret, efail; cbn [fresh ev_op arr_inner_type];
      repeat match goal with |- context [most_specific ?x ?y] => destruct (most_specific x y) as [[? ?]|] end;
      try exact I; try discriminate M.
    unfold ebind, eret. cbn. injection M as ->. rewrite !map_app, app_assoc. reflexivity. }
  destruct ((do r <- ev_op BPlus a b;; ev_op BPlus r c) x) as [[r1 y1]|] eqn:E1; [|exact X].
  destruct ((do r <- ev_op BPlus b c;; ev_op BPlus a r) x) as [[r2 y2]|] eqn:E2; [|exact X].
  apply value_eqb_iff; auto; apply any_good_v.
  - apply ebind_some in E1 as (r & z & E1 & E1'). eapply C28_well_formed; [| |exact E1']; auto. eapply C28_well_formed; [| |exact E1]; auto.
  - apply ebind_some in E2 as (r & z & E2 & E2'). eapply C28_well_formed; [| |exact E2']; auto. eapply C28_well_formed; [| |exact E2]; auto.
Qed.
(** [] and the empty string are neutral on both sides. *)
Theorem C28_neutral x : (forall s, ev_op BPlus (VStr s) (VStr []) x = Some (VStr s, x) /\ ev_op BPlus (VStr []) (VStr s) x = Some (VStr s, x)) /\
  (forall a i, exists r r' y, let e := VArr (MkArr i TAny []) in
     ev_op BPlus (VArr a) e x = Some (r, y) /\ ev_op BPlus e (VArr a) x = Some (r', y) /\
     value_eqb r (VArr a) = true /\ value_eqb r' (VArr a) = true).
Proof.
  split.
  - intros s. cbn. rewrite app_nil_r. auto.
  - intros a i. cbn [ev_op arr_inner_type arr_values]. rewrite most_specific_any_r, most_specific_any_l. destruct x as [gl sh].
    unfold ebind, eret. cbn [fresh]. eexists _, _, _. split; [reflexivity|]. split; [reflexivity|].
    rewrite app_nil_r. destruct a as [j t vs]. cbn [app arr_inner_type arr_values].
    assert (R : value_eqb (VArr (MkArr (g_next (sh_g sh)) t vs)) (VArr (MkArr j t vs)) = true).
    { apply (proj1 value_eqb_complete). reflexivity. }
    auto.
Qed.
Example C28_ex : exists x r, ev_op BPlus (VArr (MkArr 1 (TTup [TAny; TInt]) [])) (VArr (MkArr 2 (TTup [TStr; TAny]) [])) x = Some r.
Proof. exists ([], init_sh g0). eexists. reflexivity. Qed.
Example C28_ex_bad : ev_op BPlus (VArr (MkArr 1 TInt [VInt 1])) (VArr (MkArr 2 TStr [VStr []])) ([], init_sh g0) = None.
Proof. reflexivity. Qed.

(** ** C25 *)

(** How deep brackets (containers and includes) are nested in the text of an expression: 0 for one
    without brackets.  (A sign before a bracket counts as well: such a text is rejected anyway, C17.) *)
Definition signed_nest (n : N) : N := if n =? 0 then 0 else n + 1.
Definition top (l : list N) : N := fold_right N.max 0 l.
Fixpoint nest_atom (a : atom) : N :=
  match a with
  | ANum _ | AStr _ | AVar _ _ => 0
  | ADot _ _ sub => signed_nest (nest_atom sub)
  | AUn _ a => signed_nest (nest_atom a)
  | AArr es | ATup es => 1 + top (map nest_expr es)
  | AObj its => 1 + top (map (fun p => nest_expr (snd p)) its)
  | AInc e p => 1 + N.max (nest_expr e) (match p with Some e2 => nest_expr e2 | None => 0 end)
  end
with nest_expr (e : expr) : N :=
  match e with Ex a l => N.max (nest_atom a) (top (map (fun p => nest_atom (snd p)) l)) end.
Definition nest_doc (its : list (str * expr)) : N := top (map (fun p => nest_expr (snd p)) its).

Lemma top_in n l : In n l -> n <= top l.
Proof. apply max_in. Qed.
Lemma top_out m l : m < top l -> exists n, In n l /\ m < n.
Proof. apply max_out. Qed.

Definition fits (d n : N) : Prop := n = 0 \/ d + n <= 64.
Lemma fits_le d n m : m <= n -> fits d n -> fits d m.
Proof. unfold fits. lia. Qed.

Section Nest.
Variable inc : inc_ty -> str -> ES value.
Lemma emap_same {A B} (f g : A -> ES B) l : Forall (fun a => forall x, f a x = g a x) l ->
  forall x, emap f l x = emap g l x.
Proof.
  induction 1 as [|a l H F IH]; intros x; [reflexivity|]. cbn [emap]. unfold ebind. rewrite H.
  destruct (g a x) as [[v y]|]; auto. specialize (IH y). cbn [emap] in IH. rewrite IH. reflexivity.
Qed.
Lemma items_same (f g : list pair_t -> expr -> ES value) its :
  Forall (fun p => forall fields x, f fields (snd p) x = g fields (snd p) x) its ->
  forall fields par x, ev_items f its fields par x = ev_items g its fields par x.
Proof.
  induction 1 as [|[n e] its H F IH]; intros fields par x; [reflexivity|]. rewrite !ev_items_cons. cbn [snd] in H.
  destruct (kind_of_item n); auto; unfold ebind, eglobals.
  - destruct (assoc n (fst x)); auto. rewrite H. destruct (g fields e x) as [[v y]|]; auto. unfold edefine. apply IH.
  - destruct par; auto. rewrite H. destruct (g fields e x) as [[[] y]|]; auto.
  - destruct (mem_str n (map fst fields)); auto. rewrite H. destruct (g fields e x) as [[v y]|]; auto.
Qed.

(** Within the limit the limit does not matter. *)
Lemma shallow :
  (forall a d fields x, fits d (nest_atom a) -> ev_atom inc limit64 d fields a x = ev_atom inc no_limit d fields a x) /\
  (forall e d fields x, fits d (nest_expr e) -> ev_expr inc limit64 d fields e x = ev_expr inc no_limit d fields e x).
Proof.
  assert (SG : forall d n, fits d (signed_nest n) -> fits (d + 1) n).
  { unfold fits, signed_nest. intros d n. destruct (N.eqb_spec n 0); lia. }
  assert (IN : forall d n, fits d (1 + n) -> limit64 (d + 1) = true /\ fits (d + 1) n).
  { unfold fits, limit64. intros d n H. rewrite N.leb_le. lia. }
  assert (LS : forall es d fields x,
    Forall (fun e => forall d fields x, fits d (nest_expr e) -> ev_expr inc limit64 d fields e x = ev_expr inc no_limit d fields e x) es ->
    fits d (top (map nest_expr es)) -> emap (ev_expr inc limit64 d fields) es x = emap (ev_expr inc no_limit d fields) es x).
  { intros es d fields x IH F. apply emap_same. rewrite Forall_forall in *. intros e He y. apply IH; auto.
    eapply fits_le; [|exact F]. apply top_in, in_map, He. }
  apply ast_ind; try reflexivity.
  - intros g n sub IH d fields x F. rewrite !ev_dot. unfold ebind. destruct (ev_name fields g n x) as [[v y]|]; auto.
    destruct v as [|b1|a|a|a|a|t1|o1]; auto; try (rewrite IH by (apply SG; exact F); reflexivity).
    destruct sub as [| |[] ?|[] ? ?| | | | |]; auto.
  - intros op a IH d fields x F. rewrite !ev_un. unfold ebind. rewrite IH; auto.
  - intros es IH d fields x F. rewrite !ev_arr. cbn [nest_atom] in F. apply IN in F as [L F]. unfold deep. rewrite L.
    cbn [no_limit]. unfold ebind. rewrite LS; auto.
  - intros es IH d fields x F. rewrite !ev_tup. cbn [nest_atom] in F. apply IN in F as [L F]. unfold deep. rewrite L.
    cbn [no_limit]. unfold ebind. rewrite LS; auto.
  - intros its IH d fields x F. rewrite !ev_obj. cbn [nest_atom] in F. apply IN in F as [L F]. unfold deep. rewrite L.
    cbn [no_limit]. unfold ebind. rewrite (items_same _ (ev_expr inc no_limit (d + 1))); auto.
    rewrite Forall_forall in *. intros p Hp fields' y. apply IH; auto. eapply fits_le; [|exact F].
    apply top_in. apply (in_map (fun p : str * expr => nest_expr (snd p)) its p Hp).
  - intros e p IH IH2 d fields x F. rewrite !ev_inc. cbn [nest_atom] in F. apply IN in F as [L F]. unfold deep. rewrite L.
    cbn [no_limit]. unfold ebind. rewrite IH by (eapply fits_le; [|exact F]; lia).
    destruct (ev_expr inc no_limit (d + 1) fields e x) as [[v y]|]; auto.
    destruct v as [|b1|a|a|a|a|t1|o1]; auto. destruct (ev_keyword o1 _ y) as [[[k|] z]|]; auto.
    destruct p as [e2|]; auto. rewrite (IH2 e2 eq_refl) by (eapply fits_le; [|exact F]; lia). reflexivity.
  - intros a l IHa IHl d fields x F. rewrite !ev_expr_Ex. cbn [nest_expr] in F. unfold ebind.
    rewrite IHa by (eapply fits_le; [|exact F]; lia).
    destruct (ev_atom inc no_limit d fields a x) as [[v y]|]; auto.
    rewrite (emap_same _ (fun x0 => match x0 with (op, b) => fun st => match ev_atom inc no_limit d fields b st with Some (w, st') => eret (op, w) st' | None => None end end)); auto.
    rewrite Forall_forall in *. intros [op b] Hb z. rewrite (IHl (op, b) Hb); auto. cbn [snd].
    eapply fits_le; [|exact F]. etransitivity; [|apply N.le_max_r]. apply top_in.
    apply (in_map (fun p : binop * atom => nest_atom (snd p)) l (op, b) Hb).
Qed.

(** Beyond the limit there is no value. *)
Lemma too_deep :
  (forall a d fields x, 0 < nest_atom a -> 64 < d + nest_atom a -> ev_atom inc limit64 d fields a x = None) /\
  (forall e d fields x, 0 < nest_expr e -> 64 < d + nest_expr e -> ev_expr inc limit64 d fields e x = None).
Proof.
  assert (SG : forall d n, 0 < signed_nest n -> 64 < d + signed_nest n -> 0 < n /\ 64 < d + 1 + n).
  { unfold signed_nest. intros d n. destruct (N.eqb_spec n 0); lia. }
  assert (IN : forall d n, 64 < d + (1 + n) -> limit64 (d + 1) = true -> 0 < n /\ 64 < d + 1 + n).
  { unfold limit64. intros d n H L. rewrite N.leb_le in L. lia. }
  assert (LS : forall es d fields x,
    Forall (fun e => forall d fields x, 0 < nest_expr e -> 64 < d + nest_expr e -> ev_expr inc limit64 d fields e x = None) es ->
    0 < top (map nest_expr es) -> 64 < d + top (map nest_expr es) -> emap (ev_expr inc limit64 d fields) es x = None).
  { intros es d fields x IH F1 F2.
    destruct (top_out (N.max 0 (64 - d)) (map nest_expr es)) as (n & I & L); [lia|].
    apply in_map_iff in I as (e & <- & I). rewrite Forall_forall in IH.
    apply (emap_fails _ _ e); auto. intros y. apply IH; auto; lia. }
  apply ast_ind; try (intros; exfalso; cbn in *; lia).
  - intros g n sub IH d fields x F1 F2. rewrite ev_dot. cbn [nest_atom] in *. destruct (SG _ _ F1 F2) as [G1 G2]. unfold ebind.
    destruct (ev_name fields g n x) as [[v y]|]; auto.
    destruct v as [|b1|a|a|a|a|t1|o1]; auto; try (rewrite IH by auto; reflexivity).
    destruct sub as [| |[] ?|[] ? ?| | | | |]; auto.
  - intros op a IH d fields x F1 F2. rewrite ev_un. cbn [nest_atom] in *. destruct (SG _ _ F1 F2) as [G1 G2]. unfold ebind.
    rewrite IH; auto.
  - intros es IH d fields x _ F. rewrite ev_arr. cbn [nest_atom] in F. unfold deep.
    destruct (limit64 (d + 1)) eqn:L; auto. destruct (IN _ _ F L). unfold ebind. rewrite LS; auto.
  - intros es IH d fields x _ F. rewrite ev_tup. cbn [nest_atom] in F. unfold deep.
    destruct (limit64 (d + 1)) eqn:L; auto. destruct (IN _ _ F L). unfold ebind. rewrite LS; auto.
  - intros its IH d fields x _ F. rewrite ev_obj. cbn [nest_atom] in F. unfold deep.
    destruct (limit64 (d + 1)) eqn:L; auto. destruct (IN _ _ F L) as [G1 G2]. unfold ebind.
    destruct (top_out (N.max 0 (64 - (d + 1))) (map (fun p => nest_expr (snd p)) its)) as (n & I & M); [lia|].
    apply in_map_iff in I as ([f e] & <- & I). rewrite Forall_forall in IH. cbn [snd] in M.
    rewrite (items_fail _ its f e I); auto. intros fields' y. apply (IH (f, e) I); cbn [snd]; lia.
  - intros e p IH IH2 d fields x _ F. rewrite ev_inc. cbn [nest_atom] in F. unfold deep.
    destruct (limit64 (d + 1)) eqn:L; auto. destruct (IN _ _ F L) as [G1 G2]. unfold ebind.
    assert (C : 0 < nest_expr e /\ 64 < d + 1 + nest_expr e \/
                exists e2, p = Some e2 /\ 0 < nest_expr e2 /\ 64 < d + 1 + nest_expr e2).
    { destruct p as [e2|]; [|left; lia].
      destruct (N.max_spec (nest_expr e) (nest_expr e2)) as [[? E]|[? E]]; rewrite E in *; [right|left]; eauto. }
    destruct C as [[C1 C2]|(e2 & -> & C1 & C2)].
    + rewrite IH; auto.
    + destruct (ev_expr inc limit64 (d + 1) fields e x) as [[v y]|]; auto.
      destruct v as [|b1|a|a|a|a|t1|o1]; auto. destruct (ev_keyword o1 _ y) as [[[k|] z]|]; auto.
      rewrite (IH2 e2 eq_refl); auto.
  - intros a l IHa IHl d fields x F1 F2. rewrite ev_expr_Ex. cbn [nest_expr] in *. unfold ebind.
    set (m := top (map (fun p : binop * atom => nest_atom (snd p)) l)) in *.
    assert (C : 0 < nest_atom a /\ 64 < d + nest_atom a \/ 0 < m /\ 64 < d + m) by lia.
    destruct C as [[C1 C2]|[C1 C2]].
    + rewrite IHa; auto.
    + destruct (ev_atom inc limit64 d fields a x) as [[v y]|]; auto.
      destruct (top_out (N.max 0 (64 - d)) (map (fun p : binop * atom => nest_atom (snd p)) l)) as (n & I & L); [unfold m in *; lia|].
      apply in_map_iff in I as ([op b] & <- & I). rewrite Forall_forall in IHl. cbn [snd] in L.
      rewrite (emap_fails _ l (op, b) I); auto. intros z. rewrite (IHl (op, b) I); auto; cbn [snd]; lia.
Qed.

Lemma doc_shallow its x : nest_doc its <= 63 -> ev_doc inc limit64 its x = ev_doc inc no_limit its x.
Proof.
  intros H. unfold ev_doc, ebind. rewrite (items_same _ (ev_expr inc no_limit 1)); auto.
  rewrite Forall_forall. intros p Hp fields y. apply shallow. right.
  assert (L : nest_expr (snd p) <= nest_doc its); [|lia].
  apply top_in. apply (in_map (fun p : str * expr => nest_expr (snd p)) its p Hp).
Qed.
Lemma doc_too_deep its x : 63 < nest_doc its -> ev_doc inc limit64 its x = None.
Proof.
  intros H. unfold ev_doc, ebind. destruct (top_out 63 _ H) as (n & I & L).
  apply in_map_iff in I as ([f e] & <- & I). cbn [snd] in L.
  rewrite (items_fail _ its f e I); auto. intros fields y. apply too_deep; lia.
Qed.
End Nest.

(** A text that has a meaning when nesting is not limited is accepted, with this meaning, iff its
    brackets are nested at most 63 deep; otherwise the error is the one for too deep nesting. *)
Theorem C25_limit fs g its text o x : r_doc its text -> str_meaning fs no_limit g its = Some (o, x) ->
  (nest_doc its <= 63 -> from_str fs g text = Some (OOk o)) /\
  (63 < nest_doc its -> exists e, from_str fs g text = Some (OErr e) /\ depth_error e).
Proof.
  intros R M. split; intros D.
  - apply (str_ok fs g _ _ R). exists x. unfold str_meaning, meaning in *. rewrite doc_shallow; auto.
  - destruct (str_nolimit fs g _ _ R o x M) as [K|(e & sh & K & MD)].
    + exfalso. apply (str_ok fs g _ _ R) in K as (y & K). unfold str_meaning, meaning in K.
      rewrite doc_too_deep in K by auto. discriminate.
    + exists (over_from_parse e). split; [|apply maxdepth_shown; auto]. unfold from_str. rewrite K. reflexivity.
Qed.
(** Whatever its meaning, a text nested deeper is rejected. *)
Theorem C25_never_deeper fs g its text : r_doc its text -> 63 < nest_doc its ->
  exists e, from_str fs g text = Some (OErr e).
Proof.
  intros R D. apply (str_err fs g _ _ R). unfold str_meaning, meaning. apply doc_too_deep; auto.
Qed.

(** The simplest family: n brackets, each [] or (), inside each other. *)
Definition opening (b : bool) : char := if b then c_lbrack else c_lparen.
Definition closing (b : bool) : char := if b then c_rbrack else c_rparen.
Definition brackets (bs : list bool) : str := map opening bs ++ map closing (rev bs).
Fixpoint brackets_expr (b : bool) (bs : list bool) : expr :=
  let es := match bs with [] => [] | b' :: bs' => [brackets_expr b' bs'] end in
  Ex (if b then AArr es else ATup es) [].
Lemma brackets_cons b bs : brackets (b :: bs) = opening b :: brackets bs ++ [closing b].
Proof. unfold brackets. cbn [map rev]. rewrite map_app. cbn [map app]. rewrite app_assoc. reflexivity. Qed.
Lemma brackets_text bs : forall b, r_expr (brackets_expr b bs) (brackets (b :: bs)).
Proof.
  assert (S : forall (b : bool) es t, r_elems es t -> r_expr (Ex (if b then AArr es else ATup es) []) (opening b :: t ++ [closing b])).
  { intros b es t R. apply atom_expr. destruct b; cbn [opening closing].
    - apply (r_arr es [] t); [constructor|auto].
    - apply (r_tup es [] t); [constructor|auto]. }
  induction bs as [|b' bs IH]; intros b; rewrite brackets_cons; apply S.
  - constructor.
  - rewrite <- (app_nil_r (brackets _)), <- (app_nil_r (brackets _ ++ [])), <- app_assoc.
    apply (r_econs _ [] _ []); [apply IH|constructor|auto|constructor].
Qed.
Lemma brackets_nest bs : forall b, nest_expr (brackets_expr b bs) = N.of_nat (length (b :: bs)).
Proof.
  induction bs as [|b' bs IH]; intros b; [destruct b; reflexivity|].
  cbn [brackets_expr nest_expr map top fold_right]. rewrite N.max_0_r.
  destruct b; cbn [nest_atom map top fold_right]; rewrite IH, N.max_0_r; cbn [length]; lia.
Qed.
Lemma lub_one t : lub [t] = Some t.
Proof. unfold lub. cbn [fold_left]. rewrite most_specific_any_l. reflexivity. Qed.
Lemma brackets_meaning inc fields bs : forall b d x, exists v y,
  ev_expr inc no_limit d fields (brackets_expr b bs) x = Some (v, y).
Proof.
  assert (S : forall (b : bool) es d x vs y, emap (ev_expr inc no_limit (d + 1) fields) es x = Some (vs, y) -> (length vs <= 1)%nat ->
    exists v z, ev_expr inc no_limit d fields (Ex (if b then AArr es else ATup es) []) x = Some (v, z)).
  { intros b es d x vs [gl sh] E L. rewrite ev_atom_expr. destruct b; [rewrite ev_arr|rewrite ev_tup]; unfold deep; cbn [no_limit]; unfold ebind;
      rewrite E; [|cbn [fresh]; unfold eret; eauto].
    destruct vs as [|v [|]]; [| |cbn in L; lia].
    - change (lub (map get_type [])) with (Some TAny). cbn [fresh]. unfold eret. eauto.
    - cbn [map]. rewrite lub_one. cbn [fresh]. unfold eret. eauto. }
  induction bs as [|b' bs IH]; intros b d x.
  - apply (S b [] d x [] x); [reflexivity|cbn; lia].
  - destruct (IH b' (d + 1) x) as (v & y & E). cbn [brackets_expr].
    apply (S b _ d x [v] y); [|cbn; lia]. cbn [emap]. unfold ebind. rewrite E. reflexivity.
Qed.
Theorem C25_brackets fs g f bs : legal_field f -> bs <> [] ->
  ((length bs <= 63)%nat -> exists o, from_str fs g (f ++ lit ": " ++ brackets bs) = Some (OOk o)) /\
  ((63 < length bs)%nat -> exists e, from_str fs g (f ++ lit ": " ++ brackets bs) = Some (OErr e) /\ depth_error e).
Proof.
  intros Hf N. destruct bs as [|b bs]; [contradiction|]. clear N.
  assert (S1 : ws [32]) by repeat constructor.
  pose proof (one_doc f _ _ [32] Hf (brackets_text bs b) S1) as R.
  change (f ++ lit ": " ++ brackets (b :: bs)) with (f ++ c_colon :: [32] ++ brackets (b :: bs)).
  destruct (brackets_meaning (include_meaning fs None) [] bs b 1 ([], init_sh g)) as (v & y & E).
  assert (M : exists o x, str_meaning fs no_limit g [(f, brackets_expr b bs)] = Some (o, x)).
  { unfold str_meaning. rewrite one_meaning by auto. rewrite E. eauto. }
  destruct M as (o & x & M). destruct (C25_limit fs g _ _ o x R M) as [H1 H2].
  assert (D : nest_doc [(f, brackets_expr b bs)] = N.of_nat (length (b :: bs))).
  { unfold nest_doc. cbn [map snd top fold_right]. rewrite brackets_nest. lia. }
  split; intros L; [exists o; apply H1|apply H2]; lia.
Qed.

(** Signs are not limited: any number of them is accepted, *)
Fixpoint signs_value (ss : list unop) (z : Z) : Z :=
  match ss with
  | [] => z
  | UPlus :: ss' => signs_value ss' z
  | UMinus :: ss' => (- signs_value ss' z)%Z
  end.
Lemma signs_text ss : forall w, num_text w -> r_atom (fold_right AUn (ANum w) ss) (map unop_text ss ++ w).
Proof. intros w W. induction ss as [|s ss IH]; cbn; [constructor; auto|constructor; auto]. Qed.
Lemma signs_meaning inc lim fields w z ss : num_value w = Some (VInt z) -> forall d x,
  ev_atom inc lim d fields (fold_right AUn (ANum w) ss) x = Some (VInt (signs_value ss z), x).
Proof.
  intros W. induction ss as [|s ss IH]; intros d x.
  - cbn [fold_right]. change (ev_atom inc lim d fields (ANum w)) with (elift (num_value w)). rewrite W. reflexivity.
  - cbn [fold_right]. rewrite ev_un. unfold ebind. rewrite IH. destruct s; reflexivity.
Qed.
Theorem C25_signs_not_limited fs g f ss n : legal_field f ->
  exists o, from_str fs g (f ++ lit ": " ++ map unop_text ss ++ N_to_dec n) = Some (OOk o) /\
            obj_pairs o = [(f, VInt (signs_value ss (Z.of_N n)))].
Proof.
  intros Hf. assert (S1 : ws [32]) by repeat constructor.
  assert (T : num_text (N_to_dec n)) by (rewrite <- (app_nil_r (N_to_dec n)); apply dec_num_text; constructor).
  pose proof (atom_expr _ _ (signs_text ss _ T)) as R.
  change (f ++ lit ": " ++ ?t) with (f ++ c_colon :: [32] ++ t).
  eexists. split.
  - apply (one_ok fs g f _ _ [32] _ Hf R S1). unfold expr_meaning. eexists _, _. split; [|reflexivity].
    rewrite ev_atom_expr. apply signs_meaning. apply int_value.
  - reflexivity.
Qed.
(** and the recursion grows with them: with less fuel (nested calls, here parse_value and
    parse_unary_op in turn) than two calls for each sign the parser does not get to the number. *)
Theorem C25_signs_recursion fs li ss : forall fuel pairs line col d brace first t s,
  t <> [] -> s_rest s = map unop_text ss ++ t -> (fuel <= 2 * length ss)%nat ->
  fst (parse_value fs li fuel pairs line col d brace first s) = NoFuel.
Proof.
  induction ss as [|sg ss IH]; intros fuel pairs line col d brace first t s T R L.
  - cbn in L. assert (fuel = 0%nat) by lia. subst. reflexivity.
  - destruct fuel as [|fuel]; [reflexivity|]. rewrite parse_value_S. cbn [map app] in R.
    cbn [length] in L.
    assert (V : fst (parse_unary_op fs li fuel pairs d brace sg s) = NoFuel).
    { destruct fuel as [|fuel]; [reflexivity|]. rewrite parse_unary_op_S.
      unfold bind at 1. unfold next. rewrite R. destruct (adv (unop_text sg) (s_line s) (s_col s)) as [l k].
      set (s' := set_stream s (map unop_text ss ++ t) l k).
      unfold bind at 1. replace (assert_ _ s') with (Ok tt, s') by (destruct sg; reflexivity).
      unfold bind at 1, getpos. unfold bind at 1, peek.
      assert (R' : s_rest s' = map unop_text ss ++ t) by reflexivity. rewrite R'.
      destruct (map unop_text ss ++ t) as [|c r] eqn:E; [destruct ss; [contradiction|discriminate]|].
      unfold bind. specialize (IH fuel pairs (s_line s') (s_col s') (d + 1) brace false t s' T).
      rewrite E in IH. specialize (IH R' ltac:(lia)).
      destruct (parse_value fs li fuel pairs (s_line s') (s_col s') (d + 1) brace false s') as [[| | |] s2]; try discriminate IH. reflexivity. }
    unfold bind at 1, peek_unwrap, peek. unfold bind at 1. rewrite R. cbn [unwrap]. unfold ret at 1.
    destruct sg; cbn [unop_text]; cbv beta iota; unfold bind;
      match goal with |- context [if ?c =? c_quote then _ else _] => idtac end; cbn [N.eqb Pos.eqb];
      destruct (parse_unary_op fs li fuel pairs d brace _ s) as [[| | |] s2]; try discriminate V; reflexivity.
Qed.

(** ** C29: the dot notation *)

(** The parser, having parsed the index: [vs] the elements, [oob] the error of the container. *)
Definition elements (v : value) : option (list value * (N -> over_error)) :=
  match v with
  | VArr a => Some (arr_values a, OE_ArrOutOfBounds)
  | VTup t => Some (tup_values t, OE_TupOutOfBounds)
  | _ => None
  end.
Definition getter (v : value) : N -> ores value :=
  match v with VArr a => arr_get a | VTup t => tup_get t | _ => fun i => OErr (OE_ArrOutOfBounds i) end.
Theorem C29_dot_index c vs oob idx line col s : elements c = Some (vs, oob) ->
  (* an Int that is the position of an element *)
  (forall z v, idx = VInt z -> (0 <= z < 2 ^ 64)%Z -> nth_error vs (Z.to_nat z) = Some v ->
     index_by (getter c) idx line col s = (Ok v, s)) /\
  (* an Int beyond the last element *)
  (forall z, idx = VInt z -> (0 <= z < 2 ^ 64)%Z -> (Z.of_nat (length vs) <= z)%Z ->
     index_by (getter c) idx line col s = (Err (from_over (oob (Z.to_N z)) (s_file s) line col), s)) /\
  (* an Int that is no usize *)
  (forall z, idx = VInt z -> (z < 0 \/ 2 ^ 64 <= z)%Z ->
     index_by (getter c) idx line col s = (Err (mkperr (s_file s) (InvalidIndex z line col)), s)) /\
  (* no Int *)
  ((forall z, idx <> VInt z) ->
     index_by (getter c) idx line col s = (Err (mkperr (s_file s) (ExpectedType TInt (get_type idx) line col)), s)).
Proof.
  assert (U1 : forall z, (0 <= z < 2 ^ 64)%Z -> to_usize z = Some (Z.to_N z)).
  { intros z H. unfold to_usize. destruct (Z.leb_spec 0 z), (Z.leb_spec z 18446744073709551615); try lia; reflexivity. }
  assert (U2 : forall z, (z < 0 \/ 2 ^ 64 <= z)%Z -> to_usize z = None).
  { intros z H. unfold to_usize. destruct (Z.leb_spec 0 z), (Z.leb_spec z 18446744073709551615); try lia; reflexivity. }
  intros E. split; [|split; [|split]].
  - intros z v -> H K. unfold index_by. rewrite (U1 z H).
    destruct c as [|b1|a|a|a|a|t1|o1]; try discriminate E; injection E as <- <-; cbn [getter].
    + rewrite (proj2 (proj1 (C29_index_bounds_checked (Z.to_N z) v) a)); [reflexivity|].
      rewrite Z_N_nat. exact K.
    + rewrite (proj2 (proj1 (proj2 (proj2 (C29_index_bounds_checked (Z.to_N z) v))) t1)); [reflexivity|].
      rewrite Z_N_nat. exact K.
  - intros z -> H K. unfold index_by. rewrite (U1 z H).
    destruct c as [|b1|a|a|a|a|t1|o1]; try discriminate E; injection E as <- <-; cbn [getter].
    + rewrite (proj2 (proj1 (proj2 (C29_index_bounds_checked (Z.to_N z) VNull)) a)); [reflexivity|]. lia.
    + rewrite (proj2 (proj2 (proj2 (proj2 (C29_index_bounds_checked (Z.to_N z) VNull))) t1)); [reflexivity|]. lia.
  - intros z -> H. unfold index_by. rewrite (U2 z H). reflexivity.
  - intros H. destruct idx as [|b1|z|a|a|a|t1|o1]; try reflexivity. exfalso. apply (H z). reflexivity.
Qed.

(** In texts: append [h: f.w] to a document that loads and in which [f] is an Arr or Tup; [w] is a
    number, *)
Lemma own_field_name fs g text o f v : from_str fs g text = Some (OOk o) -> assoc f (obj_pairs o) = Some v -> ~ builtin f.
Proof.
  intros E A B. assert (G : wf_obj good_names o).
  { pose proof (str_spec fs g text) as S. unfold from_str in E. destruct (parse_obj_str fs g text) as [[] ]; try discriminate.
    inversion E; subst. apply S. }
  inversion G as [i ps par Gn _ _ Eo]; subst. destruct Gn as [_ Gn]. apply assoc_dom in A. rewrite Forall_forall in Gn.
  apply Gn in A. revert B. apply legal_not_builtin. exact A.
Qed.
Lemma dot_elem inc lim d fields f c vs oob sub i x : ~ builtin f -> assoc f fields = Some c -> elements c = Some (vs, oob) ->
  ev_atom inc lim (d + 1) fields sub x = Some (i, x) ->
  ev_expr inc lim d fields (Ex (ADot false f sub) []) x =
  match ev_index vs i with Some v => Some (v, x) | None => None end.
Proof.
  intros Hf A E S. rewrite ev_atom_expr, ev_dot. unfold ebind. rewrite (name_field _ _ Hf), A. cbn [elift]. unfold eret at 1.
  destruct c as [|b1|a|a|a|a|t1|o1]; try discriminate E; injection E as <- <-; rewrite S;
    destruct (ev_index _ i); reflexivity.
Qed.
Theorem C29_dot_in_texts fs g its text o f c vs oob h w text' :
  r_doc its text -> from_str fs g text = Some (OOk o) -> assoc f (obj_pairs o) = Some c -> elements c = Some (vs, oob) ->
  legal_field h -> ~ In h (field_names its) ->
  r_doc (its ++ [(h, Ex (ADot false f (ANum w)) [])]) text' ->
  (forall n v, num_value w = Some (VInt (Z.of_nat n)) -> N.of_nat n < 2 ^ 64 -> nth_error vs n = Some v ->
     exists o', from_str fs g text' = Some (OOk o') /\ obj_pairs o' = obj_pairs o ++ [(h, v)]) /\
  ((forall n, num_value w = Some (VInt (Z.of_nat n)) -> 2 ^ 64 <= N.of_nat n \/ (length vs <= n)%nat) ->
     exists e, from_str fs g text' = Some (OErr e)).
Proof.
  intros H E A El Hh Nh H'. pose proof (own_field_name _ _ _ _ _ _ E A) as Hf.
  apply (str_ok fs g _ _ H) in E as (x & M). unfold str_meaning in M. apply doc_items in M as (r & y & E & ->).
  cbn [obj_pairs] in *.
  pose proof (doc_snoc fs g its h (Ex (ADot false f (ANum w)) []) r y Hh Nh E) as S.
  destruct (num_value w) as [i|] eqn:Nv.
  - rewrite (dot_elem _ _ _ _ f c vs oob (ANum w) i y Hf A El) in S
      by (change (elift (num_value w) y = Some (i, y)); rewrite Nv; reflexivity).
    split.
    + intros n v Ei L K. injection Ei as ->. unfold ev_index in S.
      replace ((0 <=? Z.of_nat n)%Z && (Z.of_nat n <? 2 ^ 64)%Z) with true in S
        by (destruct (Z.leb_spec 0 (Z.of_nat n)), (Z.ltb_spec (Z.of_nat n) (2 ^ 64)); try lia; reflexivity).
      rewrite Nat2Z.id, K in S. destruct S as (x' & S). eexists. split; [apply (str_ok fs g _ _ H'); eauto|reflexivity].
    + intros K. apply (str_err fs g _ _ H'). replace (ev_index vs i) with (@None value) in S; [exact S|]. symmetry.
      destruct i as [|b1|z|a|a|a|t1|o1]; try reflexivity. unfold ev_index.
      destruct (Z.leb_spec 0 z), (Z.ltb_spec z (2 ^ 64)); try reflexivity. cbn [andb].
      apply nth_error_None. destruct (K (Z.to_nat z)); [rewrite Z2Nat.id by lia; reflexivity|lia|lia].
  - split; [intros n v Ei; discriminate|]. intros _. apply (str_err fs g _ _ H').
    replace (ev_expr _ _ _ _ _ y) with (@None (value * est)) in S; [exact S|]. symmetry.
    rewrite ev_atom_expr, ev_dot. unfold ebind. rewrite (name_field _ _ Hf), A. cbn [elift]. unfold eret at 1.
    destruct c as [|b1|a|a|a|a|t1|o1]; try discriminate El;
      change (ev_atom ?i ?l ?d ?fl (ANum w)) with (elift (num_value w)); rewrite Nv; reflexivity.
Qed.
(** or the name of another field. *)
Theorem C29_dot_by_field fs g its text o f c vs oob h k z text' :
  r_doc its text -> from_str fs g text = Some (OOk o) -> assoc f (obj_pairs o) = Some c -> elements c = Some (vs, oob) ->
  assoc k (obj_pairs o) = Some (VInt z) ->
  legal_field h -> ~ In h (field_names its) ->
  r_doc (its ++ [(h, Ex (ADot false f (AVar false k)) [])]) text' ->
  (forall v, (0 <= z < 2 ^ 64)%Z -> nth_error vs (Z.to_nat z) = Some v ->
     exists o', from_str fs g text' = Some (OOk o') /\ obj_pairs o' = obj_pairs o ++ [(h, v)]) /\
  ((z < 0 \/ 2 ^ 64 <= z \/ Z.of_nat (length vs) <= z)%Z -> exists e, from_str fs g text' = Some (OErr e)).
Proof.
  intros H E A El Ak Hh Nh H'. pose proof (own_field_name _ _ _ _ _ _ E A) as Hf. pose proof (own_field_name _ _ _ _ _ _ E Ak) as Hk.
  apply (str_ok fs g _ _ H) in E as (x & M). unfold str_meaning in M. apply doc_items in M as (r & y & E & ->).
  cbn [obj_pairs] in *.
  pose proof (doc_snoc fs g its h (Ex (ADot false f (AVar false k)) []) r y Hh Nh E) as S.
  rewrite (dot_elem _ _ _ _ f c vs oob (AVar false k) (VInt z) y Hf A El) in S.
  2:{ change (ev_name (fst r) false k y = Some (VInt z, y)). rewrite (name_field _ _ Hk), Ak. reflexivity. }
  unfold ev_index in S. split.
  - intros v L K. replace ((0 <=? z)%Z && (z <? 2 ^ 64)%Z) with true in S
      by (destruct (Z.leb_spec 0 z), (Z.ltb_spec z (2 ^ 64)); try lia; reflexivity).
    rewrite K in S. destruct S as (x' & S). eexists. split; [apply (str_ok fs g _ _ H'); eauto|reflexivity].
  - intros K. apply (str_err fs g _ _ H').
    destruct (Z.leb_spec 0 z), (Z.ltb_spec z (2 ^ 64)); try exact S. cbn [andb] in S.
    replace (nth_error vs (Z.to_nat z)) with (@None value) in S; [exact S|]. symmetry. apply nth_error_None. lia.
Qed.
End P.

(** ** Concrete cases *)
Example C25_ex `{U : Unicode} : let its := [(lit "a", Ex (AArr [Ex (ATup [Ex (AObj []) []]) []]) [])] in
  nest_doc its = 3 /\ exists o x, str_meaning no_fs no_limit g0 its = Some (o, x).
Proof. split; [reflexivity|]. eexists _, _. reflexivity. Qed.
Print Assumptions C25_limit.
Print Assumptions C25_brackets.
Print Assumptions C25_signs_not_limited.
Print Assumptions C25_signs_recursion.
Print Assumptions C28_arrays.
Print Assumptions C28_associative.

Section Ex.
#[local] Instance ascii : Unicode := {| u_alpha := fun _ => false; u_debug := fun c => [c] |}.
Example C29_ex_dot : let its := [(lit "a", Ex (AArr [Ex (ANum [53]) []; Ex (ANum [54]) []]) [])] in
  r_doc its (lit "a: [5 6 ] ") /\ r_doc (its ++ [(lit "b", Ex (ADot false (lit "a") (ANum [49])) [])]) (lit "a: [5 6 ] b: a.1 ") /\
  exists o a, from_str no_fs g0 (lit "a: [5 6 ] ") = Some (OOk o) /\ assoc (lit "a") (obj_pairs o) = Some (VArr a) /\
    nth_error (arr_values a) 1 = Some (VInt 6).
Proof.
  split; [apply show_doc; reflexivity|]. split; [apply show_doc; reflexivity|].
  eexists _, _. split; [vm_compute; reflexivity|]. split; reflexivity.
Qed.
End Ex.
Print Assumptions C29_dot_index.
Print Assumptions C29_dot_in_texts.
Print Assumptions C29_dot_by_field.
