(** * Roundtrip: the formatter writes texts of the grammar, and their meaning is the value. *)
From Verif Require Export PropLit EvalProofs FormatProofs.
From Coq Require String.
From Coq Require DecimalPos DecimalN.
Import String.StringSyntax.
Open Scope N_scope.

(** ** Decimal numbers *)
Lemma uint_digits u : Forall (fun c => is_digit c = true) (uint_chars u).
Proof. induction u; cbn; constructor; auto. Qed.
Lemma digits_id w : Forall (fun c => is_digit c = true) w -> digits w = w.
Proof. unfold digits. induction 1; cbn; auto. rewrite H. congruence. Qed.
Lemma dec_digits n : Forall (fun c => is_digit c = true) (N_to_dec n).
Proof. apply uint_digits. Qed.
Lemma dec_nonempty n : N_to_dec n <> [].
Proof.
  unfold N_to_dec. destruct n as [|p]; [discriminate|]. cbn [N.to_uint].
  pose proof (DecimalPos.Unsigned.to_uint_nonnil p) as H. destruct (Pos.to_uint p); try discriminate. congruence.
Qed.
Lemma uint_val_acc u : forall acc, fold_left (fun a c => a * 10 + (c - 48)) (uint_chars u) (Npos acc) = Npos (Pos.of_uint_acc u acc).
Proof.
  induction u; intros acc; [reflexivity|..]; cbn [uint_chars fold_left Pos.of_uint_acc]; rewrite <- IHu; f_equal; lia.
Qed.
Lemma uint_val u : dec_val (uint_chars u) = Pos.of_uint u.
Proof.
  unfold dec_val. induction u; [reflexivity|exact IHu|..]; cbn [uint_chars fold_left Pos.of_uint]; rewrite <- uint_val_acc; reflexivity.
Qed.
Lemma dec_val_N n : dec_val (N_to_dec n) = n.
Proof. unfold N_to_dec. rewrite uint_val. apply (DecimalN.Unsigned.of_to n). Qed.

Lemma digit_num c : is_digit c = true -> num_char c = true.
Proof. unfold num_char. intros ->. reflexivity. Qed.
Lemma digits_no_point w : Forall (fun c => is_digit c = true) w -> forall b, split_point (w ++ c_dot :: b) = (w, Some b).
Proof.
  induction 1 as [|c w H F IH]; intros b; [reflexivity|]. cbn [app split_point]. rewrite IH.
  unfold is_point. apply digit_range in H. replace (c =? c_dot) with false by (symmetry; apply N.eqb_neq; lia).
  replace (c =? c_comma) with false by (symmetry; apply N.eqb_neq; lia). reflexivity.
Qed.
Lemma digits_split w : Forall (fun c => is_digit c = true) w -> split_point w = (w, None).
Proof.
  induction 1 as [|c w H F IH]; [reflexivity|]. cbn [split_point]. rewrite IH.
  unfold is_point. apply digit_range in H. replace (c =? c_dot) with false by (symmetry; apply N.eqb_neq; lia).
  replace (c =? c_comma) with false by (symmetry; apply N.eqb_neq; lia). reflexivity.
Qed.
Lemma no_double w : Forall (fun c => c <> c_under) w -> double_under w = false.
Proof.
  induction 1 as [|c w H F IH]; [reflexivity|]. destruct w as [|d w]; [reflexivity|].
  cbn [double_under] in *. rewrite IH. replace (c =? c_under) with false by (symmetry; apply N.eqb_neq; auto). reflexivity.
Qed.
Lemma digits_not_under w : Forall (fun c => is_digit c = true) w -> Forall (fun c => c <> c_under) w.
Proof. apply Forall_impl. intros c H. apply digit_range in H. lia. Qed.

Lemma int_value n : num_value (N_to_dec n) = Some (VInt (Z.of_N n)).
Proof.
  pose proof (dec_digits n) as D. unfold num_value. rewrite (no_double _ (digits_not_under _ D)).
  rewrite (digits_split _ D), (digits_id _ D). destruct (N_to_dec n) as [|c w] eqn:E; [exfalso; eapply dec_nonempty; eauto|].
  rewrite <- E, dec_val_N. reflexivity.
Qed.
Lemma frac_value n : num_value (N_to_dec n ++ lit ".0") = Some (VFrac (Qmake (Z.of_N n) 1)).
Proof.
  pose proof (dec_digits n) as D. unfold num_value.
  change (lit ".0") with (c_dot :: [48]).
  rewrite no_double.
  2:{ apply Forall_app. split; [apply digits_not_under; auto|]. repeat constructor; discriminate. }
  rewrite (digits_no_point _ D), (digits_id _ D). cbn [existsb].
  change (is_point 48 || false) with false. cbn iota. change (digits [48]) with [48].
  destruct (N_to_dec n ++ [48]) as [|c w] eqn:E; [exfalso; eapply app_cons_not_nil; eauto|].
  rewrite <- E. rewrite dec_val_app, dec_val_N. do 2 f_equal.
  apply lowest_eqQ; [apply lowest_red|red; cbn [Qnum Qden]; rewrite Z.gcd_1_r; reflexivity|].
  rewrite Qred_correct. unfold Qeq. cbn [Qnum Qden length]. change (dec_val [48]) with 0. cbn. lia.
Qed.
Lemma dec_num_text n w : Forall (fun c => num_char c = true) w -> num_text (N_to_dec n ++ w).
Proof.
  intros W. pose proof (dec_digits n) as D. destruct (N_to_dec n) as [|c r] eqn:E; [exfalso; eapply dec_nonempty; eauto|].
  inversion D; subst. exists c, (r ++ w). split; [reflexivity|]. split; [apply digit_num; auto|].
  split; [apply digit_range in H1; lia|]. apply Forall_app. split; auto.
  eapply Forall_impl; [|exact H2]. intros a; apply digit_num.
Qed.

(** ** The abstract document a value is written as *)
Definition signed (z : Z) (w : str) : atom :=
  match z with Zneg p => AUn UMinus (ANum (N_to_dec (Npos p) ++ w)) | _ => ANum (N_to_dec (Z.to_N z) ++ w) end.
Definition quote_frac (q : Q) : expr :=
  if Pos.eqb (Qden q) 1 then Ex (signed (Qnum q) (lit ".0")) []
  else Ex (signed (Qnum q) []) [(BDiv, ANum (N_to_dec (Npos (Qden q))))].
Fixpoint quote (v : value) : expr :=
  match v with
  | VNull => Ex (AVar false (lit "null")) []
  | VBool true => Ex (AVar false (lit "true")) []
  | VBool false => Ex (AVar false (lit "false")) []
  | VInt z => Ex (signed z []) []
  | VFrac q => quote_frac q
  | VStr s => Ex (AStr (map quote_char s)) []
  | VArr (MkArr _ _ vs) => Ex (AArr (map quote vs)) []
  | VTup (MkTup _ _ vs) => Ex (ATup (map quote vs)) []
  | VObj o => Ex (AObj (quote_items o)) []
  end
with quote_items (o : obj) : list (str * expr) :=
  match o with
  | MkObj _ ps par =>
      (match par with Some p => [(lit "^", Ex (AObj (quote_items p)) [])] | None => [] end) ++
      map (fun p => match p with (f, v) => (f, quote v) end) ps
  end.

(** How deep containers are nested in a value (itself included). *)
Fixpoint depth (v : value) : N :=
  match v with
  | VArr (MkArr _ _ vs) => 1 + fold_right N.max 0 (map depth vs)
  | VTup (MkTup _ _ vs) => 1 + fold_right N.max 0 (map depth vs)
  | VObj o => depth_obj o
  | _ => 0
  end
with depth_obj (o : obj) : N :=
  match o with
  | MkObj _ ps par =>
      1 + N.max (match par with Some p => depth_obj p | None => 0 end)
                (fold_right N.max 0 (map (fun p => match p with (f, v) => depth v end) ps))
  end.

Section R.
Context `{U : Unicode}.

(** ** The text *)
Lemma ws_indent n : ws (indent n).
Proof. unfold indent. induction (N.to_nat n); cbn; constructor; auto. Qed.
Lemma ws_nl t : ws t -> ws (c_nl :: t).
Proof. intros. constructor; auto. Qed.
Lemma ws_app s t : ws s -> ws t -> ws (s ++ t).
Proof.
  intros S T. induction S; cbn; auto; [constructor; auto|]. rewrite <- app_assoc. cbn. apply ws_comment; auto.
Qed.
Lemma lines_elems (q : value -> expr) (f : value -> str) pre last : ws pre -> ws last -> forall vs v,
  Forall (fun v => r_expr (q v) (f v)) (v :: vs) ->
  exists T, concat (map (fun v => pre ++ f v ++ [c_nl]) (v :: vs)) ++ last = pre ++ T /\ r_elems (map q (v :: vs)) T.
Proof.
  intros P L. induction vs as [|w vs IH]; intros v H; inversion H; subst.
  - exists (f v ++ (c_nl :: last) ++ []). split.
    + cbn. rewrite !app_nil_r, <- !app_assoc. reflexivity.
    + cbn [map]. apply r_econs; auto using ws_nl. constructor.
  - destruct (IH w H3) as (T & E & R). exists (f v ++ (c_nl :: pre) ++ T). split.
    + cbn [map concat] in *. rewrite <- !app_assoc in *. rewrite E. reflexivity.
    + cbn [map] in *. apply r_econs; auto using ws_nl. right. discriminate.
Qed.
Lemma lines_items (q : value -> expr) (f : value -> str) pre last : ws pre -> ws last -> forall ps p,
  Forall (fun p => item_name (fst p) /\ r_expr (q (snd p)) (f (snd p))) (p :: ps) ->
  exists T, concat (map (fun p : pair_t => match p with (n, v) => pre ++ n ++ lit ": " ++ f v ++ [c_nl] end) (p :: ps)) ++ last = pre ++ T /\
    r_items (map (fun p : pair_t => match p with (n, v) => (n, q v) end) (p :: ps)) T.
Proof.
  intros P L. induction ps as [|w ps IH]; intros [n v] H; inversion H as [|? ? [H1 H2] H3]; subst.
  - exists (n ++ c_colon :: [32] ++ f v ++ (c_nl :: last) ++ []). split.
    + cbn [map concat]. rewrite !app_nil_r. repeat rewrite <- !app_assoc. reflexivity.
    + cbn [map]. apply r_icons; auto using ws_nl; repeat constructor.
  - destruct (IH w H3) as (T & E & R). exists (n ++ c_colon :: [32] ++ f v ++ (c_nl :: pre) ++ T). split.
    + cbn [map concat] in *. rewrite <- !app_assoc in *. rewrite E. reflexivity.
    + cbn [map] in *. apply r_icons; auto using ws_nl; [repeat constructor|]. right. discriminate.
Qed.

Lemma signed_text z w : Forall (fun c => num_char c = true) w -> r_atom (signed z w) (Z_to_dec z ++ w).
Proof.
  intros W. destruct z as [|p|p].
  - constructor. apply (dec_num_text 0 w W).
  - constructor. apply dec_num_text; auto.
  - apply (r_un UMinus). constructor. apply dec_num_text; auto.
Qed.
Lemma frac_text q : r_expr (quote_frac q) (format_frac q).
Proof.
  unfold quote_frac, format_frac, ratio_show. destruct (Pos.eqb (Qden q) 1).
  - apply atom_expr, signed_text. repeat constructor.
  - constructor; [rewrite <- (app_nil_r (Z_to_dec _)); apply signed_text; constructor|].
    change ([c_slash] ++ N_to_dec (N.pos (Qden q))) with (op_text BDiv :: N_to_dec (N.pos (Qden q))).
    rewrite <- (app_nil_r (op_text BDiv :: _)). apply (r_ccons BDiv); [|constructor]. constructor.
    pose proof (dec_num_text (N.pos (Qden q)) [] (Forall_nil _)) as D. rewrite app_nil_r in D. exact D.
Qed.
Lemma quote_obj_unfold o : quote (VObj o) = Ex (AObj (quote_items o)) [].
Proof. reflexivity. Qed.

Definition legal_names (l : list str) : Prop := Forall legal_field l.
Lemma write_text :
  (forall v, wf_value legal_names v -> forall ind, r_expr (quote v) (fmt ind v)) /\
  (forall o, wf_obj legal_names o ->
     (forall ind, r_expr (quote (VObj o)) (fmt ind (VObj o))) /\
     (forall ind last, ws last -> quote_items o <> [] ->
        exists T, fmt_body ind o ++ last = indent ind ++ T /\ r_items (quote_items o) T)).
Proof.
  assert (LIST : forall vs, Forall (fun v => wf_value legal_names v -> forall ind, r_expr (quote v) (fmt ind v)) vs ->
    Forall (wf_value legal_names) vs -> forall ind, Forall (fun v => r_expr (quote v) (fmt ind v)) vs).
  { intros vs A B ind. rewrite Forall_forall in *. auto. }
  apply value_obj_ind2.
  - intros _ ind. apply atom_expr. apply (r_var false). exists 110, (lit "ull"). split; [reflexivity|]. split; [left; reflexivity|].
    repeat constructor.
  - intros [|] _ ind; apply atom_expr; apply (r_var false).
    + exists 116, (lit "rue"). split; [reflexivity|]. split; [left; reflexivity|]. repeat constructor.
    + exists 102, (lit "alse"). split; [reflexivity|]. split; [left; reflexivity|]. repeat constructor.
  - intros z _ ind. apply atom_expr. cbn [fmt]. rewrite <- (app_nil_r (Z_to_dec z)). apply signed_text. constructor.
  - intros q _ ind. apply frac_text.
  - intros s _ ind. apply atom_expr. cbn [fmt]. unfold format_str. rewrite quote_text.
    change ([c_quote] ++ ?x ++ [c_quote]) with (c_quote :: x ++ [c_quote]). constructor. apply quote_ok.
  - intros id t vs IH W ind. inversion W as [| | | | |? ? ? W1 W2| |]; subst. specialize (LIST _ IH W1).
    apply atom_expr. destruct vs as [|v [|w vs]]; cbn [map].
    + apply (r_arr [] [] []); constructor.
    + cbn [fmt]. specialize (LIST ind). inversion LIST; subst.
      change (lit "[" ++ fmt ind v ++ lit "]") with (c_lbrack :: [] ++ fmt ind v ++ [c_rbrack]).
      rewrite <- (app_nil_r (fmt ind v)). apply r_arr; [constructor|].
      change (fmt ind v ++ []) with (fmt ind v ++ [] ++ []). apply r_econs; auto; constructor.
    + cbn [fmt].
      destruct (lines_elems quote (fmt (ind + 4)) (indent ind) (indent (ind - 4)) (ws_indent _) (ws_indent _) (w :: vs) v (LIST (ind + 4)))
        as (T & E & R).
      change (lit "[" ++ [c_nl] ++ ?x) with (c_lbrack :: (c_nl :: x)). rewrite app_assoc. rewrite E.
      replace (c_nl :: (indent ind ++ T) ++ lit "]") with ((c_nl :: indent ind) ++ T ++ [c_rbrack]) by (cbn [app]; rewrite <- app_assoc; reflexivity).
       apply r_arr; auto using ws_nl, ws_indent.
  - intros id t vs IH W ind. inversion W as [| | | | | |? ? ? W1 W2|]; subst. specialize (LIST _ IH W1).
    apply atom_expr. destruct vs as [|v [|w vs]]; cbn [map].
    + apply (r_tup [] [] []); constructor.
    + cbn [fmt]. specialize (LIST ind). inversion LIST; subst.
      change (lit "(" ++ fmt ind v ++ lit ")") with (c_lparen :: [] ++ fmt ind v ++ [c_rparen]).
      rewrite <- (app_nil_r (fmt ind v)). apply r_tup; [constructor|].
      change (fmt ind v ++ []) with (fmt ind v ++ [] ++ []). apply r_econs; auto; constructor.
    + cbn [fmt].
      destruct (lines_elems quote (fmt (ind + 4)) (indent ind) (indent (ind - 4)) (ws_indent _) (ws_indent _) (w :: vs) v (LIST (ind + 4)))
        as (T & E & R).
      change (lit "(" ++ [c_nl] ++ ?x) with (c_lparen :: (c_nl :: x)). rewrite app_assoc. rewrite E.
      replace (c_nl :: (indent ind ++ T) ++ lit ")") with ((c_nl :: indent ind) ++ T ++ [c_rparen]) by (cbn [app]; rewrite <- app_assoc; reflexivity).
       apply r_tup; auto using ws_nl, ws_indent.
  - intros o IH W ind. inversion W; subst. apply IH; auto.
  - intros id ps par IH IHp W. inversion W as [? ? ? W1 W2 W3]; subst.
    assert (BODY : forall ind last, ws last -> quote_items (MkObj id ps par) <> [] ->
        exists T, fmt_body ind (MkObj id ps par) ++ last = indent ind ++ T /\ r_items (quote_items (MkObj id ps par)) T).
    { intros ind last L NE.
      assert (F : Forall (fun p => item_name (fst p) /\ r_expr (quote (snd p)) (fmt (ind + 4) (snd p))) ps).
      { rewrite Forall_map in IH, W2. unfold legal_names in W1. rewrite Forall_map in W1. rewrite Forall_forall in *.
        intros p Hp. split; [apply legal_item; auto|apply IH; auto]. }
      rewrite fmt_body_unfold. cbn [quote_items] in *. destruct par as [p|].
      - specialize (IHp p eq_refl (W3 p eq_refl)) as [IH1 _]. rewrite quote_obj_unfold in IH1.
        assert (C : item_name (lit "^")).
        { exists c_caret, []. split; auto. }
        destruct ps as [|p0 ps].
        + exists (lit "^" ++ c_colon :: [32] ++ fmt (ind + 4) (VObj p) ++ (c_nl :: last) ++ []). split.
          * cbn [map concat]. rewrite !app_nil_r. rewrite <- !app_assoc. reflexivity.
          * apply r_icons; auto using ws_nl; repeat constructor.
        + destruct (lines_items quote (fmt (ind + 4)) (indent ind) last (ws_indent _) L ps p0 F) as (T & E & R).
          exists (lit "^" ++ c_colon :: [32] ++ fmt (ind + 4) (VObj p) ++ (c_nl :: indent ind) ++ T). split.
          * rewrite <- app_assoc. etransitivity; [apply f_equal; exact E|]. rewrite <- !app_assoc. reflexivity.
          * apply r_icons; auto using ws_nl, ws_indent; [repeat constructor|]. right; discriminate.
      - destruct ps as [|p0 ps]; [exfalso; apply NE; reflexivity|].
        apply lines_items; auto using ws_indent. }
    split; [|exact BODY]. intros ind. rewrite fmt_obj_unfold, quote_obj_unfold.
    apply atom_expr. destruct ps as [|p0 ps].
    + destruct par as [p|].
      * destruct (BODY ind (indent (ind - 4)) (ws_indent _)) as (T & E & R); [discriminate|].
        change (lit "{" ++ [c_nl] ++ ?x) with (c_lbrace :: (c_nl :: x)). rewrite app_assoc. rewrite E.
        replace (c_nl :: (indent ind ++ T) ++ lit "}") with ((c_nl :: indent ind) ++ T ++ [c_rbrace]) by (cbn [app]; rewrite <- app_assoc; reflexivity).
         apply r_obj; auto using ws_nl, ws_indent.
      * apply (r_obj [] [] []); constructor.
    + destruct (BODY ind (indent (ind - 4)) (ws_indent _)) as (T & E & R).
      { cbn [quote_items map]. destruct par; discriminate. }
      change (lit "{" ++ [c_nl] ++ ?x) with (c_lbrace :: (c_nl :: x)). rewrite app_assoc. rewrite E.
      replace (c_nl :: (indent ind ++ T) ++ lit "}") with ((c_nl :: indent ind) ++ T ++ [c_rbrace]) by (cbn [app]; rewrite <- app_assoc; reflexivity).
       apply r_obj; auto using ws_nl, ws_indent.
Qed.
Lemma write_doc o : wf_obj legal_names o -> r_doc (quote_items o) (fmt_body 0 o).
Proof.
  intros W. destruct (quote_items o) as [|i its] eqn:Q.
  - exists [], [], []. split; [|split; [constructor|split; [constructor|left; auto]]].
    destruct o as [id ps par]. cbn [quote_items] in Q. destruct par; [discriminate|]. destruct ps; [reflexivity|discriminate].
  - destruct (proj2 write_text o W) as [_ B]. destruct (B 0 [] ws_nil) as (T & E & R); [congruence|].
    rewrite app_nil_r in E. rewrite Q in R. exists [], T, []. split; [rewrite app_nil_r; exact E|].
    split; [constructor|]. split; auto. left; auto.
Qed.

(** ** The meaning *)
Lemma lub_spec ts t : least_spec_all ts t -> lub ts = Some t.
Proof.
  unfold lub. intros H.
  assert (G : forall ts done u t, least_spec_all done u -> least_spec_all (done ++ ts) t ->
    fold_left (fun o t => match o with
                        | Some u => match most_specific u t with Some (x, _) => Some x | None => None end
                        | None => None
                        end) ts (Some u) = Some t).
  { clear. induction ts as [|a ts IH]; intros done u t D H; cbn [fold_left].
    - rewrite app_nil_r in H. f_equal. eapply least_spec_all_unique; eauto.
    - destruct (most_specific u a) as [[x f]|] eqn:M.
      + apply (IH (done ++ [a])); [|rewrite <- app_assoc; exact H].
        eapply least_spec_all_snoc; [exact D|]. apply most_specific_some. eauto.
      + exfalso. pose proof (most_specific_spec u a) as N. rewrite M in N. apply N. exists t. split.
        * apply D. destruct H as [H _]. apply Forall_app in H as [H _]. exact H.
        * destruct H as [H _]. apply Forall_app in H as [_ H]. inversion H; auto. }
  eapply (G ts [] TAny t); auto using least_spec_all_nil.
Qed.

Lemma max_in n l : In n l -> n <= fold_right N.max 0 l.
Proof. induction l as [|a l IH]; cbn; [tauto|]. intros [->|H]; [lia|]. apply IH in H. lia. Qed.

Section Meaning.
Variable inc : inc_ty -> str -> ES value.
Variable lim : N -> bool.
Notation ev := (ev_expr inc lim).

(** No globals are made and, by this thread, no keyword Objs. *)
Definition calm (x x' : est) : Prop := fst x' = fst x /\ (g_others (sh_g (snd x)) = [] ->
  g_others (sh_g (snd x')) = [] /\ forall k, g_sent (sh_g (snd x')) k = g_sent (sh_g (snd x)) k).
Lemma calm_refl x : calm x x. Proof. split; auto. Qed.
Lemma calm_trans x y z : calm x y -> calm y z -> calm x z.
Proof.
  intros [A1 A2] [B1 B2]. split; [congruence|]. intros E. destruct (A2 E) as [E1 A3]. destruct (B2 E1) as [E2 B3].
  split; [exact E2|]. intros k. rewrite B3. apply A3.
Qed.
Hint Resolve calm_refl calm_trans : core.
(** The value of an expression, up to ids, leaving the globals alone. *)
Definition gives (m : ES value) (v : value) : Prop :=
  forall x, exists v' x', m x = Some (v', x') /\ erase v' = erase v /\ calm x x'.

Lemma fresh_some x : exists i x', fresh x = Some (i, x') /\ calm x x'.
Proof. destruct x as [gl sh]. eexists _, _. split; [reflexivity|]. split; [reflexivity|].
  cbn [snd set_g sh_g]. unfold bump, interfere, g_draw. intros E. cbn. rewrite E. split; [reflexivity|]. intros []; reflexivity. Qed.
Lemma emap_gives (f : value -> ES value) vs : Forall (fun v => gives (f v) v) vs ->
  forall x, exists vs' x', emap f vs x = Some (vs', x') /\ map erase vs' = map erase vs /\ calm x x'.
Proof.
  induction 1 as [|v vs H F IH]; intros x; cbn [emap].
  - exists [], x. auto.
  - destruct (H x) as (v' & x1 & E1 & V1 & G1). destruct (IH x1) as (vs' & x2 & E2 & V2 & G2).
    exists (v' :: vs'), x2. unfold ebind, eret. cbn [emap] in E2. rewrite E1, E2. split; auto. cbn [map].
    split; [congruence|eauto].
Qed.
Lemma emap_map {A B C} (g : A -> B) (f : B -> ES C) l : emap f (map g l) = emap (fun a => f (g a)) l.
Proof. induction l as [|a l IH]; [reflexivity|]. cbn [map emap]. rewrite <- IH. reflexivity. Qed.
Lemma types_erase vs vs' : map erase vs' = map erase vs -> map get_type vs' = map get_type vs.
Proof.
  intros E. rewrite (map_ext get_type (fun v => get_type (erase v)) (fun v => eq_sym (get_type_erase v)) vs'),
    (map_ext get_type (fun v => get_type (erase v)) (fun v => eq_sym (get_type_erase v)) vs).
  rewrite <- !(map_map erase get_type). congruence.
Qed.

Lemma ev_signed d fields z w x u : num_value (N_to_dec (Z.to_N (Z.abs z)) ++ w) = Some u ->
  ev_atom inc lim d fields (signed z w) x =
  match z with Zneg _ => match un_value UMinus u with Some v => Some (v, x) | None => None end | _ => Some (u, x) end.
Proof.
  intros E. destruct z as [|p|p]; cbn [signed Z.to_N].
  - cbn [ev_atom]. cbn [Z.abs Z.to_N] in E. rewrite E. reflexivity.
  - cbn [ev_atom]. cbn [Z.abs Z.to_N] in E. rewrite E. reflexivity.
  - rewrite ev_un. cbn [Z.abs Z.to_N] in E. unfold ebind. cbn [ev_atom]. rewrite E. unfold elift at 1, eret.
    unfold elift. destruct (un_value UMinus u); reflexivity.
Qed.
Lemma int_gives d fields z x : ev d fields (quote (VInt z)) x = Some (VInt z, x).
Proof.
  cbn [quote]. rewrite ev_atom_expr. rewrite (ev_signed d fields z [] x (VInt (Z.abs z))).
  2:{ rewrite app_nil_r, int_value. do 2 f_equal. rewrite Z2N.id; [reflexivity|lia]. }
  destruct z; reflexivity.
Qed.
Lemma frac_gives d fields q x : lowest q -> ev d fields (quote (VFrac q)) x = Some (VFrac q, x).
Proof.
  intros L. cbn [quote]. unfold quote_frac. destruct q as [n m]. cbn [Qnum Qden]. destruct (Pos.eqb_spec m 1) as [->|Hm].
  - rewrite ev_atom_expr. rewrite (ev_signed d fields n (lit ".0") x (VFrac (Qmake (Z.abs n) 1))).
    2:{ rewrite frac_value. do 3 f_equal. rewrite Z2N.id; [reflexivity|lia]. }
    destruct n; reflexivity.
  - rewrite ev_expr_Ex. unfold ebind at 1.
    rewrite (ev_signed d fields n [] x (VInt (Z.abs n))).
    2:{ rewrite app_nil_r, int_value. do 2 f_equal. rewrite Z2N.id; [reflexivity|lia]. }
    assert (E : match n with
      | Zneg _ => match un_value UMinus (VInt (Z.abs n)) with Some v => Some (v, x) | None => None end
      | _ => Some (VInt (Z.abs n), x) end = Some (VInt n, x)) by (destruct n; reflexivity).
    rewrite E. cbn [emap]. unfold ebind. cbn [ev_atom]. rewrite int_value. unfold elift at 1, eret.
    cbn [ev_chain is_priority]. unfold ebind. cbn [op_value Z.of_N Z.eqb].
    unfold elift, eret. cbn [ev_chain add_up]. unfold eret. do 3 f_equal.
    apply lowest_eqQ; [apply lowest_red|exact L|]. rewrite Qred_correct.
    unfold Qdiv, Qinv, Qmult, Qeq. cbn. lia.
Qed.
Lemma const_gives d fields n v x : assoc n constants = Some v -> ev d fields (Ex (AVar false n) []) x = Some (v, x).
Proof. intros E. rewrite ev_atom_expr. cbn [ev_atom ev_name]. unfold ev_name. rewrite E. reflexivity. Qed.

Lemma items_gives d ps : forall fields par,
  Forall (fun p => forall fields, gives (ev d fields (quote (snd p))) (snd p)) ps ->
  NoDup (map fst fields ++ map fst ps) -> Forall legal_field (map fst ps) ->
  forall x, exists ps' x',
    ev_items (ev d) (map (fun p : pair_t => match p with (f, v) => (f, quote v) end) ps) fields par x =
      Some ((fields ++ ps', par), x') /\
    map (fun p => match p with (f, v) => (f, erase v) end) ps' = map (fun p => match p with (f, v) => (f, erase v) end) ps /\
    calm x x'.
Proof.
  induction ps as [|[f v] ps IH]; intros fields par H ND L x.
  - exists [], x. rewrite app_nil_r. auto.
  - inversion H as [|? ? Hv Hps]; subst. cbn [map fst] in L. inversion L as [|? ? Lf Lps]; subst. cbn [map]. rewrite ev_items_cons.
    rewrite (legal_kind f Lf). cbn [map fst] in ND.
    replace (mem_str f (map fst fields)) with false.
    2:{ symmetry. destruct (mem_str f (map fst fields)) eqn:M; auto. apply mem_str_iff in M.
        apply NoDup_remove_2 in ND. exfalso. apply ND. apply in_or_app; auto. }
    destruct (Hv fields x) as (v' & x1 & E1 & V1 & G1). cbn [snd] in *. unfold ebind. rewrite E1.
    destruct (IH (fields ++ [(f, v')]) par Hps) with (x := x1) as (ps' & x2 & E2 & P2 & G2); auto.
    { rewrite map_app. cbn [map fst]. rewrite <- app_assoc. exact ND. }
    exists ((f, v') :: ps'), x2. rewrite <- app_assoc in E2. cbn [app] in E2. split; [exact E2|].
    cbn [map]. split; [congruence|eauto].
Qed.

(** Enough room for the containers of [v]. *)
Definition room (d n : N) : Prop := forall k, d < k -> k <= d + n -> lim k = true.
Lemma room_le d n m : m <= n -> room d n -> room d m.
Proof. intros H R k K1 K2. apply R; lia. Qed.
Lemma room_in d n m : 1 + m <= n -> room d n -> room (d + 1) m.
Proof. intros H R k K1 K2. apply R; lia. Qed.
Definition obj_gives (d : N) (its : list (str * expr)) (o : obj) : Prop :=
  forall x, exists ps par x', ev_items (ev d) its [] None x = Some ((ps, par), x') /\
    erase_obj (MkObj 0 ps par) = erase_obj o /\ calm x x'.
Lemma depth_obj_pos o : 1 <= depth_obj o.
Proof. destruct o. cbn [depth_obj]. lia. Qed.
Lemma obj_in d fields its o : lim (d + 1) = true -> obj_gives (d + 1) its o ->
  gives (ev d fields (Ex (AObj its) [])) (VObj o).
Proof.
  intros L H x. rewrite ev_atom_expr, ev_obj. unfold deep. rewrite L.
  destruct (H x) as (ps & par & x1 & E & V & G). destruct (fresh_some x1) as (i & x2 & F & G2).
  exists (VObj (MkObj i ps par)), x2. unfold ebind. rewrite E, F. split; [reflexivity|]. split; [|eauto].
  cbn [erase]. f_equal. rewrite <- V. reflexivity.
Qed.
Lemma quote_gives :
  (forall v, wf_value good_names v -> forall d fields, room d (depth v) -> gives (ev d fields (quote v)) v) /\
  (forall o, wf_obj good_names o -> forall d, room d (depth_obj o - 1) -> obj_gives d (quote_items o) o).
Proof.
  apply value_obj_ind2.
  - intros _ d fields _ x. exists VNull, x. split; auto.
  - intros b _ d fields _ x. exists (VBool b), x. split; [destruct b; apply const_gives; reflexivity|auto].
  - intros z _ d fields _ x. exists (VInt z), x. split; [|auto]. apply int_gives.
  - intros q W d fields _ x. exists (VFrac q), x. split; [|auto]. apply frac_gives. inversion W; auto.
  - intros s W d fields _ x. exists (VStr s), x. split; auto. cbn [quote]. rewrite ev_atom_expr. cbn [ev_atom].
    rewrite quote_value. reflexivity.
  - intros id t vs IH W d fields R x. inversion W as [| | | | |? ? ? W1 W2| |]; subst.
    cbn [quote]. rewrite ev_atom_expr, ev_arr. unfold deep. cbn [depth] in R. rewrite (R (d + 1)) by lia.
    rewrite emap_map.
    destruct (emap_gives (fun v => ev (d + 1) fields (quote v)) vs) with (x := x) as (vs' & x1 & E & V & G).
    { rewrite Forall_forall in *. intros v Hv. apply IH; auto. eapply room_in; [|exact R].
      apply N.add_le_mono_l, max_in, in_map; auto. }
    unfold ebind. rewrite E. rewrite (types_erase _ _ V), (lub_spec _ _ W2).
    destruct (fresh_some x1) as (i & x2 & F & G2). rewrite F. eexists _, _. split; [reflexivity|].
    split; [|eauto]. cbn [erase]. rewrite V. reflexivity.
  - intros id t vs IH W d fields R x. inversion W as [| | | | | |? ? ? W1 W2|]; subst.
    cbn [quote]. rewrite ev_atom_expr, ev_tup. unfold deep. cbn [depth] in R. rewrite (R (d + 1)) by lia.
    rewrite emap_map.
    destruct (emap_gives (fun v => ev (d + 1) fields (quote v)) vs) with (x := x) as (vs' & x1 & E & V & G).
    { rewrite Forall_forall in *. intros v Hv. apply IH; auto. eapply room_in; [|exact R].
      apply N.add_le_mono_l, max_in, in_map; auto. }
    unfold ebind. rewrite E.
    destruct (fresh_some x1) as (i & x2 & F & G2). rewrite F. eexists _, _. split; [reflexivity|].
    split; [|eauto]. cbn [erase]. rewrite V, (types_erase _ _ V). reflexivity.
  - intros o IH W d fields R. inversion W; subst. rewrite quote_obj_unfold. cbn [depth] in R.
    pose proof (depth_obj_pos o). apply obj_in; [apply R; lia|]. apply IH; auto. eapply room_in; [|exact R]. lia.
  - intros id ps par IH IHp W d R x. inversion W as [? ? ? [W0 W1] W2 W3]; subst. cbn [depth_obj] in R.
    match type of R with room _ ?n => assert (RR : room d (N.max (match par with Some p => depth_obj p | None => 0 end)
                (fold_right N.max 0 (map (fun p => match p with (f, v) => depth v end) ps)))) by (eapply room_le; [|exact R]; lia) end.
    assert (I : forall x, exists ps' x',
      ev_items (ev d) (map (fun p : pair_t => match p with (f, v) => (f, quote v) end) ps) [] None x = Some ((ps', None), x') /\
      map (fun p => match p with (f, v) => (f, erase v) end) ps' = map (fun p => match p with (f, v) => (f, erase v) end) ps /\
      calm x x').
    { clear x. intros x.
      destruct (items_gives d ps [] None) with (x := x) as (ps' & x' & H); auto; [|eauto].
      rewrite Forall_map in IH, W2. rewrite Forall_forall in *. intros [f v] Hp fields. apply IH; auto.
      eapply room_le; [|exact RR]. etransitivity; [|apply N.le_max_r].
      apply max_in. apply in_map_iff. exists (f, v). auto. }
    cbn [quote_items]. destruct par as [p|].
    + assert (P : gives (ev d [] (Ex (AObj (quote_items p)) [])) (VObj p)).
      { assert (RP : room d (depth_obj p)) by (eapply room_le; [apply N.le_max_l|exact RR]).
        pose proof (depth_obj_pos p). apply obj_in; [apply RP; lia|]. apply IHp; auto. eapply room_in; [|exact RP]. lia. }
      destruct (P x) as (v' & x1 & E1 & V1 & G1).
      destruct v' as [| | | | |[]|[]|o']; try discriminate. cbn [erase] in V1. injection V1 as V1.
      destruct (items_gives d ps [] (Some o')) with (x := x1) as (ps' & x2 & E2 & V2 & G2); auto.
      { rewrite Forall_map in IH, W2. rewrite Forall_forall in *. intros [f v] Hp fields. apply IH; auto.
        eapply room_le; [|exact RR]. etransitivity; [|apply N.le_max_r].
        apply max_in. apply in_map_iff. exists (f, v). auto. }
      exists ps', (Some o'), x2. cbn [app]. rewrite ev_items_cons. change (kind_of_item (lit "^")) with KParent.
      cbn iota. unfold ebind. rewrite E1. split; [exact E2|]. split; [|eauto].
      cbn [erase_obj]. rewrite V2, V1. reflexivity.
    + destruct (I x) as (ps' & x' & E & V & G). exists ps', None, x'. cbn [app]. split; auto. split; auto.
      cbn [erase_obj]. rewrite V. reflexivity.
Qed.
End Meaning.

(** Without enough room there is no meaning. *)
Lemma emap_fails {A B} (f : A -> ES B) l a : In a l -> (forall x, f a x = None) -> forall x, emap f l x = None.
Proof.
  intros H N. induction l as [|b l IH]; [inversion H|]. intros x. cbn [emap]. unfold ebind. destruct H as [->|H].
  - rewrite N. reflexivity.
  - destruct (f b x) as [[v y]|]; auto. specialize (IH H y). cbn [emap] in IH. rewrite IH. reflexivity.
Qed.
Lemma items_fail (ev : list pair_t -> expr -> ES value) its f e : In (f, e) its ->
  (forall fields x, ev fields e x = None) -> forall fields par x, ev_items ev its fields par x = None.
Proof.
  intros H N. induction its as [|[f' e'] its IH]; [inversion H|]. intros fields par x. rewrite ev_items_cons.
  assert (C : (f', e') = (f, e) \/ In (f, e) its) by exact H. clear H. unfold ebind, efail, eglobals.
  destruct C as [C|C].
  - injection C as -> ->. destruct (kind_of_item f); auto.
    + destruct (assoc f (fst x)); auto. rewrite N. auto.
    + destruct par; auto. rewrite N. auto.
    + destruct (mem_str f (map fst fields)); auto. rewrite N. auto.
  - specialize (IH C). destruct (kind_of_item f'); auto.
    + destruct (assoc f' (fst x)); auto. destruct (ev fields e' x) as [[v y]|]; auto. unfold edefine. apply IH.
    + destruct par; auto. destruct (ev fields e' x) as [[[] y]|]; auto.
    + destruct (mem_str f' (map fst fields)); auto. destruct (ev fields e' x) as [[v y]|]; auto.
Qed.
Lemma max_out m l : m < fold_right N.max 0 l -> exists n, In n l /\ m < n.
Proof.
  induction l as [|a l IH]; cbn; [lia|]. intros H. destruct (N.lt_ge_cases m a); [eauto|].
  destruct IH as (n & I & L); [lia|eauto].
Qed.
Lemma quote_deep inc :
  (forall v d fields x, d <= 64 -> 64 < d + depth v -> ev_expr inc limit64 d fields (quote v) x = None) /\
  (forall o d fields par x, d <= 64 -> 64 < d + (depth_obj o - 1) -> ev_items (ev_expr inc limit64 d) (quote_items o) fields par x = None).
Proof.
  assert (LIST : forall vs, Forall (fun v => forall d fields x, d <= 64 -> 64 < d + depth v -> ev_expr inc limit64 d fields (quote v) x = None) vs ->
    forall d fields x, d <= 64 -> 64 < d + fold_right N.max 0 (map depth vs) -> emap (ev_expr inc limit64 d fields) (map quote vs) x = None).
  { intros vs IH d fields x D H. destruct (max_out (64 - d) (map depth vs)) as (n & I & L); [lia|].
    apply in_map_iff in I as (v & <- & I). rewrite Forall_forall in IH.
    apply (emap_fails _ _ (quote v)); [apply in_map; auto|]. intros y. apply IH; auto. lia. }
  assert (TOP : forall d, limit64 d = false \/ limit64 d = true /\ d <= 64).
  { intros d. unfold limit64. destruct (N.leb_spec d 64); auto. }
  apply value_obj_ind2; try (intros; exfalso; cbn in *; lia).
  - intros id t vs IH d fields x D H. cbn [quote]. rewrite ev_atom_expr, ev_arr. cbn [depth] in H. unfold deep.
    destruct (TOP (d + 1)) as [T|[T T']]; rewrite T; [reflexivity|]. unfold ebind. rewrite (LIST vs IH); auto. lia.
  - intros id t vs IH d fields x D H. cbn [quote]. rewrite ev_atom_expr, ev_tup. cbn [depth] in H. unfold deep.
    destruct (TOP (d + 1)) as [T|[T T']]; rewrite T; [reflexivity|]. unfold ebind. rewrite (LIST vs IH); auto. lia.
  - intros o IH d fields x D H. rewrite quote_obj_unfold, ev_atom_expr, ev_obj. cbn [depth] in H. unfold deep.
    destruct (TOP (d + 1)) as [T|[T T']]; rewrite T; [reflexivity|]. unfold ebind. rewrite IH; auto. lia.
  - intros id ps par IH IHp d fields par' x D H. cbn [depth_obj] in H.
    rewrite Forall_map in IH. rewrite Forall_forall in IH.
    assert (C : 64 < d + match par with Some p => depth_obj p | None => 0 end \/
                64 < d + fold_right N.max 0 (map (fun p => match p with (f, v) => depth v end) ps)) by lia.
    destruct C as [C|C].
    + destruct par as [p|]; [|lia]. apply (items_fail _ _ (lit "^") (Ex (AObj (quote_items p)) [])); [left; reflexivity|].
      intros fields' y. rewrite ev_atom_expr, ev_obj. unfold deep.
      destruct (TOP (d + 1)) as [T|[T T']]; rewrite T; [reflexivity|]. unfold ebind. rewrite (IHp p eq_refl); auto. lia.
    + destruct (max_out (64 - d) (map (fun p => match p with (f, v) => depth v end) ps)) as (n & I & L); [lia|].
      apply in_map_iff in I as ([f v] & <- & I).
      apply (items_fail _ _ f (quote v)).
      * cbn [quote_items]. apply in_or_app. right. apply in_map_iff. exists (f, v). auto.
      * intros fields' y. apply (IH (f, v) I); auto. cbn [snd]. lia.
Qed.
End R.
