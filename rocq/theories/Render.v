(** * Render: every syntactically legal document has a text. *)
From Verif Require Export EvalProofs.
From Coq Require String.
Import String.StringSyntax.
Open Scope N_scope.

Section R.
Context `{U : Unicode}.

Definition letterb (c : char) : bool := ch_is_alphabetic c || (c =? c_under).
Definition lodb (c : char) : bool := letterb c || is_digit c.
Definition var_nameb (glob : bool) (n : str) : bool :=
  match n with c :: r => (if glob then lodb c else letterb c) && forallb lodb r | [] => false end.
Definition item_nameb (f : str) : bool :=
  match f with
  | c :: r =>
      ((letterb c || (c =? c_caret)) && forallb lodb r) ||
      ((c =? c_at) && match r with d :: r' => (letterb d || (d =? c_caret)) && forallb lodb r' | [] => false end)
  | [] => false
  end.
Definition num_textb (w : str) : bool :=
  match w with c :: r => num_char c && negb (c =? c_under) && forallb num_char r | [] => false end.
Definition schar_okb (x : schar) : bool :=
  match x with SPlain c => negb (c =? c_quote) && negb (c =? c_bslash) | SEsc _ => true end.
Definition dot_subb (a : atom) : bool := match a with ANum _ | AVar _ _ | ADot _ _ _ => true | _ => false end.

(** Legal documents: names, numbers and strings are what the grammar allows. *)
Fixpoint legal_atom (a : atom) : bool :=
  match a with
  | ANum w => num_textb w
  | AStr cs => forallb schar_okb cs
  | AVar g n => var_nameb g n
  | ADot g n sub => var_nameb g n && dot_subb sub && legal_atom sub
  | AUn _ a => legal_atom a
  | AArr es | ATup es => forallb legal_expr es
  | AObj its => forallb (fun p => item_nameb (fst p) && legal_expr (snd p)) its
  | AInc e p => legal_expr e && match p with Some e2 => legal_expr e2 | None => true end
  end
with legal_expr (e : expr) : bool :=
  match e with Ex a l => legal_atom a && forallb (fun p => legal_atom (snd p)) l end.

(** One of the texts: single spaces. *)
Fixpoint show_atom (a : atom) : str :=
  match a with
  | ANum w => w
  | AStr cs => c_quote :: flat_map schar_text cs ++ [c_quote]
  | AVar g n => (if g then [c_at] else []) ++ n
  | ADot g n sub => (if g then [c_at] else []) ++ n ++ c_dot :: show_atom sub
  | AUn op a => unop_text op :: show_atom a
  | AArr es => c_lbrack :: [] ++ flat_map (fun e => show_expr e ++ [32]) es ++ [c_rbrack]
  | ATup es => c_lparen :: [] ++ flat_map (fun e => show_expr e ++ [32]) es ++ [c_rparen]
  | AObj its => c_lbrace :: [] ++ flat_map (fun p => fst p ++ c_colon :: [32] ++ show_expr (snd p) ++ [32]) its ++ [c_rbrace]
  | AInc e None => c_lt :: [] ++ show_expr e ++ [] ++ [c_gt]
  | AInc e (Some e2) => c_lt :: [] ++ show_expr e ++ [32] ++ show_expr e2 ++ [] ++ [c_gt]
  end
with show_expr (e : expr) : str :=
  match e with Ex a l => show_atom a ++ flat_map (fun p => op_text (fst p) :: show_atom (snd p)) l end.
Definition show_items (its : list (str * expr)) : str :=
  flat_map (fun p => fst p ++ c_colon :: [32] ++ show_expr (snd p) ++ [32]) its.
Definition legal_items (its : list (str * expr)) : bool :=
  forallb (fun p => item_nameb (fst p) && legal_expr (snd p)) its.

Lemma letterb_iff c : letterb c = true -> letter c.
Proof. unfold letterb, letter. rewrite orb_true_iff, N.eqb_eq. auto. Qed.
Lemma lodb_iff c : lodb c = true -> letter_or_digit c.
Proof. unfold lodb. rewrite orb_true_iff. intros [H|H]; [left; apply letterb_iff; auto|right; auto]. Qed.
Lemma lods r : forallb lodb r = true -> Forall letter_or_digit r.
Proof. rewrite forallb_forall, Forall_forall. intros H c Hc. apply lodb_iff. auto. Qed.
Lemma var_nameb_ok g n : var_nameb g n = true -> var_name g n.
Proof.
  destruct n as [|c r]; [discriminate|]. cbn. rewrite andb_true_iff. intros [H1 H2]. exists c, r. split; auto.
  split; [destruct g; [apply lodb_iff|apply letterb_iff]; auto|apply lods; auto].
Qed.
Lemma item_nameb_ok f : item_nameb f = true -> item_name f.
Proof.
  destruct f as [|c r]; [discriminate|]. cbn. rewrite orb_true_iff, !andb_true_iff, orb_true_iff, !N.eqb_eq.
  intros [[H1 H2]|[-> H]].
  - exists c, r. split; auto. split; [destruct H1; [left; apply letterb_iff; auto|auto]|apply lods; auto].
  - destruct r as [|d r]; [discriminate|]. apply andb_true_iff in H as [H1 H2]. apply orb_true_iff in H1.
    rewrite N.eqb_eq in H1. exists d, r. split; auto.
    split; [destruct H1; [left; apply letterb_iff; auto|auto]|apply lods; auto].
Qed.
Lemma num_textb_ok w : num_textb w = true -> num_text w.
Proof.
  destruct w as [|c r]; [discriminate|]. cbn. rewrite !andb_true_iff, negb_true_iff, N.eqb_neq. intros [[H1 H2] H3].
  exists c, r. repeat split; auto. rewrite forallb_forall in H3. rewrite Forall_forall. auto.
Qed.
Lemma schars_ok cs : forallb schar_okb cs = true -> Forall schar_ok cs.
Proof.
  rewrite forallb_forall, Forall_forall. intros H x Hx. apply H in Hx. destruct x; [|exact I]. cbn in *.
  rewrite andb_true_iff, !negb_true_iff, !N.eqb_neq in Hx. auto.
Qed.
Lemma space_ws : ws [32].
Proof. constructor; [reflexivity|constructor]. Qed.

Lemma show_elems es : Forall (fun e => legal_expr e = true -> r_expr e (show_expr e)) es ->
  forallb legal_expr es = true -> r_elems es (flat_map (fun e => show_expr e ++ [32]) es).
Proof.
  induction 1 as [|e es He Hes IH]; intros L; [constructor|]. cbn in L. apply andb_true_iff in L as [L1 L2].
  cbn [flat_map]. rewrite <- app_assoc. apply (r_econs e es (show_expr e) [32]); auto using space_ws.
  right. discriminate.
Qed.
Lemma show_its its : Forall (fun p => legal_expr (snd p) = true -> r_expr (snd p) (show_expr (snd p))) its ->
  legal_items its = true -> r_items its (show_items its).
Proof.
  induction 1 as [|[f e] its He Hes IH]; intros L; [constructor|]. cbn in L. apply andb_true_iff in L as [L1 L2].
  apply andb_true_iff in L1 as [L0 L1]. unfold show_items. cbn [flat_map fst snd].
  replace ((f ++ c_colon :: [32] ++ show_expr e ++ [32]) ++ flat_map (fun p => fst p ++ c_colon :: [32] ++ show_expr (snd p) ++ [32]) its)
    with (f ++ c_colon :: [32] ++ show_expr e ++ [32] ++ show_items its).
  2:{ unfold show_items. rewrite <- !app_assoc. cbn [app]. rewrite <- !app_assoc. reflexivity. }
  apply r_icons; auto using space_ws, item_nameb_ok. right. discriminate.
Qed.
Lemma show_ok : (forall a, legal_atom a = true -> r_atom a (show_atom a)) /\
                (forall e, legal_expr e = true -> r_expr e (show_expr e)).
Proof.
  apply ast_ind.
  - intros w L. constructor. apply num_textb_ok. exact L.
  - intros cs L. constructor. apply schars_ok. exact L.
  - intros g n L. constructor. apply var_nameb_ok. exact L.
  - intros g n sub IH L. cbn in L. rewrite !andb_true_iff in L. destruct L as [[L1 L2] L3].
    constructor; auto using var_nameb_ok. destruct sub; try discriminate; exact I.
  - intros op a IH L. constructor. auto.
  - intros es IH L. apply (r_arr es [] _); [constructor|]. apply show_elems; auto.
  - intros es IH L. apply (r_tup es [] _); [constructor|]. apply show_elems; auto.
  - intros its IH L. apply (r_obj its [] (show_items its)); [constructor|]. apply show_its; auto.
  - intros e p IH IH2 L. cbn in L. apply andb_true_iff in L as [L1 L2]. destruct p as [e2|].
    + apply (r_inc2 e e2 [] _ [32] _ []); auto using space_ws; try constructor. discriminate.
    + apply (r_inc1 e [] _ []); auto; constructor.
  - intros a l IHa IHl L. cbn in L. apply andb_true_iff in L as [L1 L2]. cbn [show_expr]. constructor; auto.
    clear IHa L1. induction IHl as [|[op b] l Hb Hl IH]; [constructor|]. cbn in L2. apply andb_true_iff in L2 as [L2 L3].
    cbn [flat_map fst snd]. change ((op_text op :: show_atom b) ++ ?x) with (op_text op :: show_atom b ++ x).
    constructor; auto.
Qed.
Lemma show_doc its : legal_items its = true -> r_doc its (show_items its).
Proof.
  intros L. exists [], (show_items its), []. rewrite app_nil_r. split; auto. split; [constructor|]. split; [|left; auto].
  apply show_its; auto. apply Forall_forall. intros p _. apply show_ok.
Qed.
(** The same with another last white space. *)
Lemma show_doc_trim its f e : legal_items (its ++ [(f, e)]) = true ->
  r_doc (its ++ [(f, e)]) (show_items its ++ f ++ c_colon :: [32] ++ show_expr e).
Proof.
  intros L. unfold legal_items in L. rewrite forallb_app in L. apply andb_true_iff in L as [L1 L2]. cbn in L2.
  rewrite andb_true_r in L2. apply andb_true_iff in L2 as [L2 L3].
  exists [], (show_items its ++ f ++ c_colon :: [32] ++ show_expr e), []. rewrite app_nil_r. split; auto.
  split; [constructor|]. split; [|left; auto].
  assert (B : r_items [(f, e)] (f ++ c_colon :: [32] ++ show_expr e)).
  { pose proof (r_icons f e [] [32] (show_expr e) [] [] (item_nameb_ok _ L2) space_ws (proj2 show_ok e L3) ws_nil (or_introl eq_refl) r_inil) as R.
    cbn [app] in R. rewrite !app_nil_r in R. exact R. }
  clear L2 L3. induction its as [|[f' e'] its IH]; [exact B|]. cbn in L1. apply andb_true_iff in L1 as [L0 L1].
  apply andb_true_iff in L0 as [L0 L2]. unfold show_items. cbn [flat_map fst snd].
  replace (((f' ++ c_colon :: [32] ++ show_expr e' ++ [32]) ++ flat_map (fun p => fst p ++ c_colon :: [32] ++ show_expr (snd p) ++ [32]) its) ++ f ++ c_colon :: [32] ++ show_expr e)
    with (f' ++ c_colon :: [32] ++ show_expr e' ++ [32] ++ (show_items its ++ f ++ c_colon :: [32] ++ show_expr e)).
  2:{ unfold show_items. rewrite <- !app_assoc. cbn [app]. rewrite <- !app_assoc. reflexivity. }
  cbn [app]. apply (r_icons f' e' (its ++ [(f, e)]) [32] (show_expr e') [32]); auto using space_ws, item_nameb_ok.
  - apply (proj2 show_ok); auto.
  - right. discriminate.
Qed.
End R.
