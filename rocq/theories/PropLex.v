(** * PropLex: C25, C26, C27, C41 for every text, stated with the scanners of LexSpec.v. *)
From Verif Require Import Lex PropComplete PropScope PropOps PropNames.
From Coq Require String.
Import String.StringSyntax.
Open Scope N_scope.

Section P.
Context `{U : Unicode}.

(** ** C26 *)
Lemma doc_splice its a w1 w2 b : ws w1 -> w1 <> [] -> ws w2 -> w2 <> [] -> mode_after a = Code ->
  r_doc its (a ++ w1 ++ b) -> r_doc its (a ++ w2 ++ b).
Proof.
  intros W1 N1 W2 N2 M (w & t & c & E & W & R & L).
  destruct flex_all as (_ & _ & _ & _ & FI). destruct (FI _ _ R) as (ps & Et & P & A1 & A2 & _ & H). subst t.
  destruct (splice w1 w2 W1 N1 W2 N2 (Gap w :: ps) a b c) as (ps' & c' & S & L' & E').
  - constructor; auto.
  - apply alt_gap. auto.
  - exact M.
  - exact L.
  - cbn [text flat_map ptext]. rewrite <- app_assoc. auto.
  - apply same_gap in S as (w' & rs & -> & W' & _ & S). exists w', (text rs), c'. split; [|auto].
    rewrite <- E'. cbn [text flat_map ptext]. rewrite <- app_assoc. reflexivity.
Qed.
(** In any text, at any place outside strings and comments, white space (with comments) can be replaced by other white
    space: the same Obj is loaded, or both texts are rejected. *)
Theorem C26_replace fs g a w1 w2 b o : ws w1 -> w1 <> [] -> ws w2 -> w2 <> [] -> mode_after a = Code ->
  from_str fs g (a ++ w1 ++ b) = Some (OOk o) <-> from_str fs g (a ++ w2 ++ b) = Some (OOk o).
Proof.
  intros W1 N1 W2 N2 M. rewrite !C41_accepted_iff.
  split; intros (its & x & R & E); exists its, x; (split; [|exact E]).
  - eapply (doc_splice its a w1 w2 b); eauto.
  - eapply (doc_splice its a w2 w1 b); eauto.
Qed.
(** White space at the start of a text means nothing; white space after a document, on lines of its own, neither. *)
Theorem C26_start fs g w t o : ws w -> from_str fs g (w ++ t) = Some (OOk o) <-> from_str fs g t = Some (OOk o).
Proof.
  intros W. rewrite !C41_accepted_iff. split; intros (its & x & (w0 & t0 & c & E & W0 & R & L) & K); exists its, x; (split; [|exact K]).
  - destruct (ws_strip w W w0 t (t0 ++ c) W0 E (items_solid _ _ _ R L)) as (w2 & W2 & ->). exists w2, t0, c. auto.
  - exists (w ++ w0), t0, c. subst t. rewrite <- app_assoc. split; auto. split; [apply ws_app; auto|auto].
Qed.
Theorem C26_end fs g w t o : ws w -> from_str fs g t = Some (OOk o) -> from_str fs g (t ++ c_nl :: w) = Some (OOk o).
Proof.
  intros W. rewrite !C41_accepted_iff. intros (its & x & R & K). exists its, x. split; [|exact K].
  rewrite <- (app_nil_r its). apply doc_cat; auto. exists w, [], []. rewrite !app_nil_r. repeat split; auto; [constructor|left; auto].
Qed.

(** ** C41: brackets and strings of an accepted text are closed *)
Lemma ob_app a : forall m st b, open_brackets m st (a ++ b) =
  match open_brackets m st a with Some st' => open_brackets (modes m a) st' b | None => None end.
Proof.
  induction a as [|c a IH]; intros m st b; [reflexivity|]. cbn [app open_brackets]. change (modes m (c :: a)) with (modes (step m c) a).
  destruct m; auto. destruct (closer c); auto. destruct (is_closer c); auto. destruct st as [|d st]; auto. destruct (d =? c); auto.
Qed.
Definition level1 (m : mode) (n : N) (c : char) : N :=
  match m with Code => match closer c with Some _ => n + 1 | None => if is_closer c then n - 1 else n end | _ => n end.
Fixpoint level (m : mode) (n : N) (t : str) : N :=
  match t with [] => n | c :: t' => level (step m c) (level1 m n c) t' end.
Lemma deepest_app a : forall m n b, deepest m n (a ++ b) = N.max (deepest m n a) (deepest (modes m a) (level m n a) b).
Proof.
  induction a as [|c a IH]; intros m n b.
  - cbn. destruct b; cbn [deepest]; lia.
  - cbn [app deepest level]. change (modes m (c :: a)) with (modes (step m c) a). fold (level1 m n c). rewrite IH. lia.
Qed.
Lemma level_app a : forall m n b, level m n (a ++ b) = level (modes m a) (level m n a) b.
Proof. induction a as [|c a IH]; intros m n b; [reflexivity|]. cbn [app level]. rewrite IH. reflexivity. Qed.

(** a text that leaves everything as it was; k is how deep its brackets go *)
Definition even (k : N) (t : str) : Prop :=
  modes Code t = Code /\ (forall st, open_brackets Code st t = Some st) /\
  (forall n, level Code n t = n /\ deepest Code n t = n + k).
Lemma even_app k l t u : even k t -> even l u -> even (N.max k l) (t ++ u).
Proof.
  intros (A1 & A2 & A3) (B1 & B2 & B3). split; [rewrite modes_app, A1; auto|]. split.
  - intros st. rewrite ob_app, A2, A1. apply B2.
  - intros n. destruct (A3 n) as [C1 C2], (B3 n) as [D1 D2].
    rewrite level_app, deepest_app, A1, C1, C2, D1, D2. split; lia.
Qed.
Lemma even_nil : even 0 [].
Proof. repeat split; cbn; auto; lia. Qed.
(** characters that are not brackets *)
Lemma calm_step c m st n : closer c = None -> is_closer c = false ->
  open_brackets m st [c] = Some st /\ level1 m n c = n.
Proof. intros H1 H2. destruct m; cbn; rewrite ?H1, ?H2; auto. Qed.
Lemma calm m t : Forall (fun c => closer c = None /\ is_closer c = false) t ->
  (forall st, open_brackets m st t = Some st) /\ (forall n, level m n t = n /\ deepest m n t = n).
Proof.
  intros F. revert m. induction F as [|c t [H1 H2] F IH]; intros m; [repeat split; auto|]. split.
  - intros st. cbn [open_brackets]. rewrite H1, H2. destruct m; apply IH.
  - intros n. cbn [level deepest]. fold (level1 m n c). destruct (calm_step c m [] n H1 H2) as [_ ->].
    destruct (proj2 (IH (step m c)) n) as [-> ->]. split; lia.
Qed.
(** nothing outside the code matters *)
Lemma masked : forall t m, (forall a b, t = a ++ b -> b <> [] -> modes m a <> Code) ->
  (forall st, open_brackets m st t = Some st) /\ (forall n, level m n t = n /\ deepest m n t = n).
Proof.
  induction t as [|c t IH]; intros m H; [repeat split; auto|].
  assert (Nm : m <> Code) by (apply (H [] (c :: t)); [auto|discriminate]).
  destruct (IH (step m c)) as [I1 I2].
  { intros a b E Nb. apply (H (c :: a) b); [rewrite E|]; auto. }
  split.
  - intros st. cbn [open_brackets]. destruct m; [congruence|auto..].
  - intros n. cbn [level deepest]. fold (level1 m n c). assert (level1 m n c = n) as -> by (destruct m; [congruence|auto..]).
    destruct (I2 n) as [-> ->]. split; lia.
Qed.
Lemma even_quiet s : Forall quiet s -> even 0 s.
Proof.
  intros F. split; [apply quiet_hard; auto|]. destruct (calm Code s) as [A1 A2].
  - eapply Forall_impl; [|exact F]. intros c H. split; apply H.
  - split; auto. intros n. rewrite N.add_0_r. auto.
Qed.
Lemma even_string cs : Forall schar_ok cs -> even 0 (c_quote :: flat_map schar_text cs ++ [c_quote]).
Proof.
  intros F. destruct (masked (flat_map schar_text cs ++ [c_quote]) Quoted) as [A1 A2].
  { intros a b E Nb. apply app_split in E as [(r & Ea & Eb)|(e & r & Ea & Eb)].
    - eapply schars_cut; eauto.
    - inversion Eb as [[Ee Er]]. symmetry in Er. apply app_eq_nil in Er as [_ Er]. congruence. }
  split; [apply hard_string; auto|]. split.
  - intros st. change (open_brackets Quoted st (flat_map schar_text cs ++ [c_quote]) = Some st). apply A1.
  - intros n. cbn [level deepest]. change (level1 Code n c_quote) with n. change (step Code c_quote) with Quoted.
    change (closer c_quote) with (@None char). change (is_closer c_quote) with false. cbn iota.
    destruct (A2 n) as [-> ->]. split; lia.
Qed.
Lemma comment_masked body : Forall (fun c => c <> c_nl) body -> 
  (forall st, open_brackets Comment st body = Some st) /\ (forall n, level Comment n body = n /\ deepest Comment n body = n).
Proof.
  intros F. apply masked. intros a b -> Nb. apply Forall_app in F as [F _]. rewrite modes_comment by auto. discriminate.
Qed.
Lemma ws_calm c : ch_is_whitespace c = true -> closer c = None /\ is_closer c = false.
Proof.
  intros H. unfold closer, is_closer.
  repeat match goal with |- context [c =? ?k] => destruct (N.eqb_spec c k) as [->|]; [discriminate H|] end. auto.
Qed.
Lemma even_ws w : ws w -> even 0 w.
Proof.
  induction 1 as [|c t Hc W IH|body t F W IH]; [apply even_nil| |].
  - change (even (N.max 0 0) ([c] ++ t)). apply even_app; auto. destruct (ws_calm c Hc) as [H1 H2].
    split; [apply modes_ws; repeat constructor; auto|]. destruct (calm Code [c]) as [A1 A2]; [repeat constructor; auto|].
    split; auto. intros n. rewrite N.add_0_r. auto.
  - change (c_hash :: body ++ c_nl :: t) with ([c_hash] ++ body ++ [c_nl] ++ t). rewrite !app_assoc.
    change (even (N.max 0 0) ((([c_hash] ++ body) ++ [c_nl]) ++ t)). apply even_app; auto.
    destruct (comment_masked _ F) as [A1 A2].
    assert (Mb : modes Code ([c_hash] ++ body) = Comment) by (apply modes_comment; auto).
    split; [rewrite modes_app, Mb; reflexivity|]. split.
    + intros st. rewrite ob_app. change (open_brackets Code st ([c_hash] ++ body)) with (open_brackets Comment st body).
      rewrite A1, Mb. reflexivity.
    + intros n. rewrite level_app, deepest_app, Mb. change (level Code n ([c_hash] ++ body)) with (level Comment n body).
      change (deepest Code n ([c_hash] ++ body)) with (N.max n (deepest Comment n body)).
      destruct (A2 n) as [-> ->]. cbn. split; lia.
Qed.
Lemma even_around o c k w t : closer o = Some c -> is_closer c = true -> closer c = None -> c <> c_hash -> c <> c_quote -> o <> c_hash -> o <> c_quote ->
  ws w -> even k t -> even (1 + k) (o :: w ++ t ++ [c]).
Proof.
  intros Ho Hc Hc' N1 N2 N3 N4 W H. apply even_ws in W. pose proof (even_app _ _ _ _ W H) as (A1 & A2 & A3).
  apply N.eqb_neq in N1. apply N.eqb_neq in N2. apply N.eqb_neq in N3. apply N.eqb_neq in N4.
  assert (S1 : step Code o = Code) by (cbn; rewrite N3, N4; auto). assert (S2 : step Code c = Code) by (cbn; rewrite N1, N2; auto).
  rewrite app_assoc. split; [change (modes (step Code o) ((w ++ t) ++ [c]) = Code); rewrite S1, modes_app, A1; exact S2|]. split.
  - intros st. cbn [open_brackets]. rewrite Ho, S1, ob_app, A2, A1. cbn [open_brackets]. rewrite Hc', Hc, N.eqb_refl. reflexivity.
  - intros n. cbn [level deepest level1]. rewrite Ho, S1, level_app, deepest_app, A1.
    destruct (A3 (n + 1)) as [-> ->]. cbn [level deepest level1]. rewrite Hc', Hc. split; lia.
Qed.

(** how deep the brackets of an expression go *)
Fixpoint deep_atom (a : atom) : N :=
  match a with
  | ANum _ | AStr _ | AVar _ _ => 0
  | ADot _ _ sub => deep_atom sub
  | AUn _ a => deep_atom a
  | AArr es | ATup es => 1 + top (map deep_expr es)
  | AObj its => 1 + top (map (fun p => deep_expr (snd p)) its)
  | AInc e p => 1 + N.max (deep_expr e) (match p with Some e2 => deep_expr e2 | None => 0 end)
  end
with deep_expr (e : expr) : N :=
  match e with Ex a l => N.max (deep_atom a) (top (map (fun p => deep_atom (snd p)) l)) end.
Definition deep_items (its : list (str * expr)) : N := top (map (fun p => deep_expr (snd p)) its).

Lemma even_eq k l t : even k t -> k = l -> even l t.
Proof. intros H <-. auto. Qed.
Theorem even_all :
  (forall a t, r_atom a t -> even (deep_atom a) t) /\ (forall e t, r_expr e t -> even (deep_expr e) t) /\
  (forall l t, r_chain l t -> even (top (map (fun p => deep_atom (snd p)) l)) t) /\
  (forall es t, r_elems es t -> even (top (map deep_expr es)) t) /\
  (forall its t, r_items its t -> even (deep_items its) t).
Proof.
  apply r_mut.
  - intros w (c & r & -> & H & _ & F). apply even_quiet. constructor; [apply num_quiet; auto|].
    eapply Forall_impl; [|exact F]. intros. apply num_quiet; auto.
  - intros cs F. apply even_string; auto.
  - intros glob n H. apply even_quiet. apply (name_quiet glob n H).
  - intros glob n sub t H D R IH.
    replace ((if glob then [c_at] else []) ++ n ++ c_dot :: t) with ((((if glob then [c_at] else []) ++ n) ++ [c_dot]) ++ t)
      by (rewrite <- !app_assoc; reflexivity).
    eapply even_eq; [apply even_app; [apply even_quiet|exact IH]|cbn [deep_atom]; lia].
    apply Forall_app. split; [apply name_quiet; auto|repeat constructor; try reflexivity; discriminate].
  - intros op a t R IH. change (unop_text op :: t) with ([unop_text op] ++ t).
    eapply even_eq; [apply even_app; [apply even_quiet; repeat constructor; apply unop_quiet|exact IH]|cbn [deep_atom]; lia].
  - intros es w t W R IH. apply (even_around c_lbrack c_rbrack); auto; discriminate.
  - intros es w t W R IH. apply (even_around c_lparen c_rparen); auto; discriminate.
  - intros es w t W R IH. apply (even_around c_lbrace c_rbrace); auto; discriminate.
  - intros e w t w' W R IH W'. rewrite (app_assoc t). eapply even_eq; [apply (even_around c_lt c_gt); auto; try discriminate|].
    + apply even_app; [exact IH|apply even_ws; auto].
    + cbn [deep_atom]. lia.
  - intros e e2 w t w' t2 w2 W R IH W' N R2 IH2 W2.
    replace (c_lt :: w ++ t ++ w' ++ t2 ++ w2 ++ [c_gt]) with (c_lt :: w ++ (t ++ w' ++ t2 ++ w2) ++ [c_gt]) by (rewrite <- !app_assoc; reflexivity).
    eapply even_eq; [apply (even_around c_lt c_gt); auto; try discriminate|].
    + apply even_app; [exact IH|]. apply even_app; [apply even_ws; auto|]. apply even_app; [exact IH2|apply even_ws; auto].
    + cbn [deep_atom]. lia.
  - intros a l t t' R IH R' IH'. apply even_app; auto.
  - apply even_nil.
  - intros op a l t t' R IH R' IH'. change (op_text op :: t ++ t') with ([op_text op] ++ t ++ t').
    eapply even_eq; [apply even_app; [apply even_quiet; repeat constructor; apply op_quiet|apply even_app; [exact IH|exact IH']]|].
    cbn [map snd top fold_right]. unfold top. lia.
  - apply even_nil.
  - intros e es t w t' R IH W D R' IH'. eapply even_eq; [apply even_app; [exact IH|apply even_app; [apply even_ws; auto|exact IH']]|].
    cbn [map snd top fold_right]. unfold top. lia.
  - apply even_nil.
  - intros f e its w t w' t' Hf W R IH W' D R' IH'. apply item_quiet in Hf as [Fq _].
    replace (f ++ c_colon :: w ++ t ++ w' ++ t') with (f ++ [c_colon] ++ w ++ t ++ w' ++ t') by reflexivity.
    eapply even_eq; [apply even_app; [apply even_quiet; exact Fq|apply even_app; [|apply even_app; [apply even_ws; auto|
      apply even_app; [exact IH|apply even_app; [apply even_ws; auto|exact IH']]]]]|].
    + instantiate (1 := 0). split; [reflexivity|]. split; [reflexivity|]. intros n. cbn. split; lia.
    + unfold deep_items. cbn [map snd top fold_right]. unfold top. lia.
Qed.

Lemma last_scan c : last_comment c -> (modes Code c = Code \/ modes Code c = Comment) /\
  (forall st, open_brackets Code st c = Some st) /\ (forall n, deepest Code n c = n).
Proof.
  intros [->|(body & -> & F)]; [repeat split; auto|]. destruct (comment_masked _ F) as [A1 A2]. split; [right; apply (modes_comment body F)|].
  split; [intros st; apply (A1 st)|]. intros n. change (N.max n (deepest Comment n body) = n). destruct (A2 n) as [_ ->]. lia.
Qed.
Lemma doc_scan its t : r_doc its t ->
  (mode_after t = Code \/ mode_after t = Comment) /\ open_brackets Code [] t = Some [] /\ deepest Code 0 t = deep_items its.
Proof.
  intros (w & u & c & -> & W & R & L). apply last_scan in L as (L1 & L2 & L3). apply even_ws in W.
  apply (proj2 (proj2 (proj2 (proj2 even_all)))) in R. pose proof (even_app _ _ _ _ W R) as (A1 & A2 & A3).
  destruct (A3 0) as [A4 A5]. rewrite app_assoc. change (mode_after ((w ++ u) ++ c)) with (modes Code ((w ++ u) ++ c)).
  rewrite modes_app, ob_app, deepest_app, A1, A2, A4, A5. repeat split; auto. rewrite L3. lia.
Qed.

(** Every bracket of an accepted text is closed by its own kind, none is left open, and the text does not end in a
    string. *)
Theorem C41_brackets_closed fs g text o : from_str fs g text = Some (OOk o) ->
  open_brackets Code [] text = Some [] /\ (mode_after text = Code \/ mode_after text = Comment).
Proof. rewrite C41_accepted_iff. intros (its & x & R & _). apply doc_scan in R. tauto. Qed.
Corollary C41_unclosed_rejected fs g text :
  open_brackets Code [] text <> Some [] \/ mode_after text = Quoted \/ mode_after text = Escaped ->
  exists e, from_str fs g text = Some (OErr e).
Proof.
  intros H. apply C41_not_in_grammar. intros its R. apply doc_scan in R as ([M|M] & B & _); rewrite M, B in H; intuition discriminate.
Qed.

(** ** C25 *)
Lemma deep_nest :
  (forall a t, r_atom a t -> deep_atom a <= nest_atom a) /\ (forall e t, r_expr e t -> deep_expr e <= nest_expr e) /\
  (forall l t, r_chain l t -> top (map (fun p => deep_atom (snd p)) l) <= top (map (fun p => nest_atom (snd p)) l)) /\
  (forall es t, r_elems es t -> top (map deep_expr es) <= top (map nest_expr es)) /\
  (forall its t, r_items its t -> deep_items its <= nest_doc its).
Proof.
  assert (S : forall n, n <= signed_nest n) by (intros n; unfold signed_nest; destruct (N.eqb_spec n 0); lia).
  apply r_mut; intros; cbn [deep_atom nest_atom deep_expr nest_expr map snd]; unfold deep_items, nest_doc in *;
    cbn [map snd fold_right] in *; unfold top in *; cbn [fold_right] in *; try lia.
  - specialize (S (nest_atom sub)). lia.
  - specialize (S (nest_atom a)). lia.
Qed.
(** In no accepted text are more than 63 brackets open at once. *)
Theorem C25_every_text fs g text o : from_str fs g text = Some (OOk o) -> deepest Code 0 text <= 63.
Proof.
  intros E. assert (E' := E). apply C41_accepted_iff in E as (its & x & R & _).
  destruct (N.le_gt_cases (deepest Code 0 text) 63) as [H|H]; auto. exfalso.
  apply doc_scan in R as K. destruct K as (_ & _ & K).
  assert (D : deep_items its <= nest_doc its).
  { destruct R as (w & t & c & _ & _ & R & _). eapply (proj2 (proj2 (proj2 (proj2 deep_nest)))); eauto. }
  destruct (C25_never_deeper fs g its text R) as (e & X); [lia|]. congruence.
Qed.

(** ** C27 *)
(** texts that give no name *)
Definition silent (t : str) : Prop := forall n cur, exists cur', forall rest,
  top_names Code n cur (t ++ rest) = top_names Code n cur' rest.
Lemma silent_app t u : silent t -> silent u -> silent (t ++ u).
Proof.
  intros H K n cur. destruct (H n cur) as (c1 & H1), (K n c1) as (c2 & H2). exists c2. intros rest.
  rewrite <- app_assoc, H1, H2. reflexivity.
Qed.
Lemma silent_nil : silent [].
Proof. intros n cur. exists cur. auto. Qed.
Lemma quiet_step c n cur rest : quiet c -> top_names Code n cur (c :: rest) = top_names Code n (if 0 <? n then cur else c :: cur) rest.
Proof.
  intros ((H1 & H2 & H3) & H4 & H5 & H6). cbn [top_names]. apply N.eqb_neq in H2. apply N.eqb_neq in H3. apply N.eqb_neq in H6.
  rewrite H4, H5, H6, H1. cbn [step]. rewrite H2, H3. destruct (0 <? n); auto.
Qed.
Lemma silent_quiet s : Forall quiet s -> silent s.
Proof.
  induction 1 as [|c s H F IH]; [apply silent_nil|]. change (c :: s) with ([c] ++ s). apply silent_app; auto.
  intros n cur. eexists. intros rest. apply quiet_step; auto.
Qed.
Lemma masked_names : forall t m, (forall a b, t = a ++ b -> b <> [] -> modes m a <> Code) ->
  forall n cur, exists cur', forall rest, top_names m n cur (t ++ rest) = top_names (modes m t) n cur' rest.
Proof.
  induction t as [|c t IH]; intros m H n cur; [exists cur; auto|].
  assert (Nm : m <> Code) by (apply (H [] (c :: t)); [auto|discriminate]).
  destruct (IH (step m c)) with (n := n) (cur := match m with Comment => @nil char | _ => cur end) as (c' & K).
  { intros a b E Nb. apply (H (c :: a) b); [rewrite E|]; auto. }
  exists c'. intros rest. change (modes m (c :: t)) with (modes (step m c) t). rewrite <- K. cbn [app top_names].
  destruct m; [congruence|auto..].
Qed.
Lemma silent_string cs : Forall schar_ok cs -> silent (c_quote :: flat_map schar_text cs ++ [c_quote]).
Proof.
  intros F n cur. destruct (masked_names (flat_map schar_text cs ++ [c_quote]) Quoted) with (n := n) (cur := if 0 <? n then cur else c_quote :: cur) as (c' & K).
  { intros a b E Nb. apply app_split in E as [(r & Ea & Eb)|(e & r & Ea & Eb)].
    - eapply schars_cut; eauto.
    - inversion Eb as [[Ee Er]]. symmetry in Er. apply app_eq_nil in Er as [_ Er]. congruence. }
  rewrite modes_app, modes_schars in K by auto. exists c'. intros rest. cbn [app top_names]. 
  change (closer c_quote) with (@None char). change (is_closer c_quote) with false. change (step Code c_quote) with Quoted. cbn iota.
  change (c_quote =? c_colon) with false. change (ch_is_whitespace c_quote) with false. cbn iota.
  change (modes Quoted [c_quote]) with Code in K. rewrite <- K. destruct (0 <? n); auto.
Qed.
(** white space ends what came before *)
Lemma ws_step c n cur rest : ch_is_whitespace c = true ->
  top_names Code n cur (c :: rest) = top_names Code n (if 0 <? n then cur else []) rest.
Proof.
  intros H. cbn [top_names]. destruct (ws_calm c H) as [-> ->]. rewrite ws_code by auto. rewrite H.
  assert (c =? c_colon = false) as -> by (apply N.eqb_neq; intros ->; discriminate). destruct (0 <? n); auto.
Qed.
Lemma comment_step body n cur rest : Forall (fun c => c <> c_nl) body ->
  top_names Code n cur (c_hash :: body ++ c_nl :: rest) = top_names Code n [] rest.
Proof.
  intros F. assert (K : forall cur, top_names Comment n cur (body ++ c_nl :: rest) = top_names Code n [] rest).
  { induction F as [|c b H F IH]; intros cur'; [reflexivity|]. cbn [app top_names step]. apply N.eqb_neq in H. rewrite H. apply IH. }
  cbn [top_names]. change (closer c_hash) with (@None char). change (is_closer c_hash) with false. change (step Code c_hash) with Comment. cbn iota.
  change (c_hash =? c_colon) with false. change (ch_is_whitespace c_hash) with false. cbn iota. rewrite !K. destruct (0 <? n); auto.
Qed.
Lemma silent_ws w : ws w -> silent w.
Proof.
  induction 1 as [|c t Hc W IH|body t F W IH]; [apply silent_nil| |].
  - change (c :: t) with ([c] ++ t). apply silent_app; auto. intros n cur. eexists. intros rest. apply ws_step; auto.
  - replace (c_hash :: body ++ c_nl :: t) with ((c_hash :: body ++ [c_nl]) ++ t) by (cbn; rewrite <- app_assoc; reflexivity).
    apply silent_app; auto. intros n cur. exists []. intros rest. cbn [app]. rewrite <- app_assoc. apply comment_step; auto.
Qed.
Lemma ws_ends w : ws w -> forall cur rest, w <> [] \/ cur = [] -> top_names Code 0 cur (w ++ rest) = top_names Code 0 [] rest.
Proof.
  induction 1 as [|c t Hc W IH|body t F W IH]; intros cur rest H.
  - destruct H as [H| ->]; [congruence|reflexivity].
  - cbn [app]. rewrite ws_step by auto. apply IH. auto.
  - cbn [app]. rewrite <- app_assoc. cbn [app]. rewrite comment_step by auto. apply IH. auto.
Qed.
Lemma top_names_in t : forall n cur, (exists k, n = k + 1) -> forall rest, silent t -> exists cur', top_names Code n cur (t ++ rest) = top_names Code n cur' rest.
Proof. intros n cur _ rest S. destruct (S n cur) as (c & H). exists c. auto. Qed.
(** inside brackets everything is silent, colons too *)
Definition silent_in (t : str) : Prop := forall n cur, exists cur', forall rest,
  top_names Code (n + 1) cur (t ++ rest) = top_names Code (n + 1) cur' rest.
Lemma silent_silent t : silent t -> silent_in t.
Proof. intros H n cur. apply H. Qed.
Lemma silent_in_app t u : silent_in t -> silent_in u -> silent_in (t ++ u).
Proof.
  intros H K n cur. destruct (H n cur) as (c1 & H1), (K n c1) as (c2 & H2). exists c2. intros rest.
  rewrite <- app_assoc, H1, H2. reflexivity.
Qed.
Lemma silent_around o c w t : closer o = Some c -> is_closer c = true -> closer c = None -> c <> c_hash -> c <> c_quote -> o <> c_hash -> o <> c_quote ->
  ws w -> silent_in t -> silent (o :: w ++ t ++ [c]).
Proof.
  intros Ho Hc Hc' N1 N2 N3 N4 W H n cur. apply silent_ws, silent_silent in W.
  destruct (silent_in_app _ _ W H n cur) as (c' & K).
  apply N.eqb_neq in N1. apply N.eqb_neq in N2. apply N.eqb_neq in N3. apply N.eqb_neq in N4.
  exists c'. intros rest. replace ((o :: w ++ t ++ [c]) ++ rest) with (o :: (w ++ t) ++ c :: rest) by (cbn; rewrite <- !app_assoc; reflexivity).
  cbn [top_names]. rewrite Ho. cbn [step]. rewrite N3, N4, K. cbn [top_names]. rewrite Hc', Hc. cbn [step]. rewrite N1, N2.
  replace (n + 1 - 1) with n by lia. reflexivity.
Qed.
Lemma silent_colon : silent_in [c_colon].
Proof. intros n cur. exists cur. intros rest. cbn [app top_names]. destruct (N.ltb_spec 0 (n + 1)); [reflexivity|lia]. Qed.

Theorem silent_all :
  (forall a t, r_atom a t -> silent t) /\ (forall e t, r_expr e t -> silent t) /\ (forall l t, r_chain l t -> silent t) /\
  (forall es t, r_elems es t -> silent t) /\ (forall its t, r_items its t -> silent_in t).
Proof.
  apply (r_mut U (fun _ => silent) (fun _ => silent) (fun _ => silent) (fun _ => silent) (fun _ => silent_in)).
  - intros w (c & r & -> & H & _ & F). apply silent_quiet. constructor; [apply num_quiet; auto|].
    eapply Forall_impl; [|exact F]. intros. apply num_quiet; auto.
  - intros cs F. apply silent_string; auto.
  - intros glob n H. apply silent_quiet, (name_quiet glob n H).
  - intros glob n sub t H D R IH.
    replace ((if glob then [c_at] else []) ++ n ++ c_dot :: t) with ((((if glob then [c_at] else []) ++ n) ++ [c_dot]) ++ t)
      by (rewrite <- !app_assoc; reflexivity).
    apply silent_app; auto. apply silent_quiet, Forall_app. split; [apply name_quiet; auto|repeat constructor; try reflexivity; discriminate].
  - intros op a t R IH. change (unop_text op :: t) with ([unop_text op] ++ t). apply silent_app; auto.
    apply silent_quiet. repeat constructor; apply unop_quiet.
  - intros es w t W R IH. apply silent_around; auto; try discriminate. apply silent_silent; auto.
  - intros es w t W R IH. apply silent_around; auto; try discriminate. apply silent_silent; auto.
  - intros es w t W R IH. apply silent_around; auto; discriminate.
  - intros e w t w' W R IH W'. rewrite (app_assoc t). apply silent_around; auto; try discriminate.
    apply silent_silent, silent_app; auto. apply silent_ws; auto.
  - intros e e2 w t w' t2 w2 W R IH W' N R2 IH2 W2.
    replace (c_lt :: w ++ t ++ w' ++ t2 ++ w2 ++ [c_gt]) with (c_lt :: w ++ (t ++ w' ++ t2 ++ w2) ++ [c_gt]) by (rewrite <- !app_assoc; reflexivity).
    apply silent_around; auto; try discriminate. apply silent_silent. repeat apply silent_app; auto; apply silent_ws; auto.
  - intros a l t t' R IH R' IH'. apply silent_app; auto.
  - apply silent_nil.
  - intros op a l t t' R IH R' IH'. change (op_text op :: t ++ t') with ([op_text op] ++ t ++ t').
    repeat apply silent_app; auto. apply silent_quiet. repeat constructor; apply op_quiet.
  - apply silent_nil.
  - intros e es t w t' R IH W D R' IH'. repeat apply silent_app; auto. apply silent_ws; auto.
  - apply silent_silent, silent_nil.
  - intros f e its w t w' t' Hf W R IH W' D R' IH'. apply item_quiet in Hf as [Fq _].
    change (f ++ c_colon :: w ++ t ++ w' ++ t') with (f ++ [c_colon] ++ w ++ t ++ w' ++ t').
    repeat apply silent_in_app; auto; try (apply silent_silent; auto; apply silent_ws; auto; fail).
    + apply silent_silent, silent_quiet; auto.
    + apply silent_colon.
Qed.
Lemma names_word f : Forall quiet f -> forall cur rest, top_names Code 0 cur (f ++ c_colon :: rest) = rev (rev f ++ cur) :: top_names Code 0 [] rest.
Proof.
  induction 1 as [|c f H F IH]; intros cur rest; [reflexivity|]. cbn [app]. rewrite quiet_step by auto. cbn iota.
  change (0 <? 0) with false. cbn iota. rewrite IH. cbn [rev]. rewrite <- app_assoc. reflexivity.
Qed.
Lemma names_items its t : r_items its t -> forall w c, ws w -> last_comment c ->
  names_of (w ++ t ++ c) = map fst its.
Proof.
  intros R. unfold names_of.
  assert (K : forall cur w c, w <> [] \/ cur = [] \/ its = [] -> ws w -> last_comment c -> top_names Code 0 cur (w ++ t ++ c) = map fst its).
  { induction R as [|f e its w1 te w2 t Hf W1 He W2 D R IH]; intros cur w c H W L.
    - cbn [app map]. assert (E : w <> [] \/ cur = [] \/ w = []) by (destruct w; auto; left; discriminate).
      assert (N : forall cur, top_names Code 0 cur c = []).
      { destruct L as [->|(body & -> & F)]; [reflexivity|]. intros cur'. destruct (masked_names body Comment) with (n := 0) (cur := c_hash :: cur') as (c' & K').
        - intros a b -> Nb. apply Forall_app in F as [F _]. rewrite modes_comment by auto. discriminate.
        - specialize (K' []). rewrite app_nil_r in K'. exact K'. }
      destruct (silent_ws w W 0 cur) as (c' & K'). rewrite K'. apply N.
    - rewrite ws_ends by (auto; destruct H as [H|[H|H]]; auto; discriminate).
      apply item_quiet in Hf as [Fq _]. rewrite <- app_assoc. cbn [app]. rewrite names_word by auto. cbn [map fst].
      rewrite app_nil_r, rev_involutive. f_equal. rewrite <- !app_assoc. destruct (silent_ws w1 W1 0 []) as (c1 & K1). rewrite K1.
      destruct (proj1 (proj2 silent_all) _ _ He 0 c1) as (c2 & K2). rewrite K2. apply IH; auto. destruct D; auto. }
  intros w c W L. apply K; auto.
Qed.
(** The fields of a loaded Obj are the names before the colons outside all brackets, in the order of the text. *)
Theorem C27_every_text fs g text o : from_str fs g text = Some (OOk o) ->
  map fst (obj_pairs o) = filter is_field_name (names_of text).
Proof.
  intros E. assert (E' := E). apply C41_accepted_iff in E as (its & x & R & K).
  rewrite (C27_field_order fs g its text o R E'). destruct R as (w & t & c & -> & W & R & L).
  rewrite (names_items _ _ R _ _ W L). reflexivity.
Qed.

(** No name is written twice (the names of globals and the parent included), and the Obj has a parent iff the name [^]
    is written. *)
Lemma items_names fs file lim d its : forall fields parent x r y, wfvals (snd x) ->
  ev_items (ev_expr (include_meaning fs file) lim d) its fields parent x = Some (r, y) ->
  NoDup (map fst its) /\
  (forall f, In f (map fst its) -> is_field_name f = true -> ~ In f (map fst fields)) /\
  (forall f, In f (map fst its) -> is_field_name f = false -> f <> [c_caret] -> assoc f (fst x) = None) /\
  (parent <> None -> ~ In [c_caret] (map fst its)) /\
  (snd r <> None <-> parent <> None \/ In [c_caret] (map fst its)).
Proof.
  induction its as [|[f e] its IH]; intros fields parent x r y W E.
  - inversion E; subst. cbn. repeat split; auto; try constructor; tauto.
  - rewrite ev_items_cons in E. cbn [map fst]. destruct (kind_of_item f) eqn:K.
    + apply kind_global in K as (n & ->). apply ebind_some in E as (gl & y1 & E1 & E). inversion E1; subst gl y1. clear E1.
      destruct (assoc (c_at :: n) (fst x)) eqn:A; [discriminate|].
      apply ebind_some in E as (v & y2 & E2 & E). apply ebind_some in E as (u & y3 & E3 & E). inversion E3; subst u y3. clear E3.
      apply (step_expr fs file) in E2. destruct (E2 W) as (W2 & [L2 _] & _).
      apply IH in E as (I1 & I2 & I3 & I4 & I5); [|exact W2]. cbn [fst] in I3. split; [|split; [|split; [|split]]].
      * constructor; auto. intros X. apply I3 in X; [|reflexivity|discriminate]. rewrite assoc_cons_eq in X. discriminate.
      * intros f [<-|X] Y; [discriminate|auto].
      * intros f [<-|X] Y Z; [exact A|]. specialize (I3 f X Y Z). destruct (assoc f (fst x)) eqn:B; auto. exfalso.
        apply L2 in B. destruct (str_eqb_spec (c_at :: n) f) as [<-|Nf]; [rewrite assoc_cons_eq in I3; discriminate|].
        cbn [assoc] in I3. destruct (str_eqb_spec (c_at :: n) f); congruence.
      * intros X [Y|Y]; [discriminate|]. apply I4 in X. auto.
      * rewrite I5. cbn [In]. intuition discriminate.
    + apply kind_parent in K as ->. destruct parent; [discriminate|]. apply ebind_some in E as (v & y2 & E2 & E).
      destruct v; try discriminate. apply (step_expr fs file) in E2. destruct (E2 W) as (W2 & [L2 _] & _).
      apply IH in E as (I1 & I2 & I3 & I4 & I5); [|exact W2]. split; [|split; [|split; [|split]]].
      * constructor; auto. apply I4. discriminate.
      * intros f [<-|X] Y; [discriminate|auto].
      * intros f [<-|X] Y Z; [congruence|]. specialize (I3 f X Y Z). destruct (assoc f (fst x)) eqn:B; auto. exfalso.
        apply L2 in B. congruence.
      * congruence.
      * rewrite I5. cbn [In]. intuition congruence.
    + apply kind_field in K as Kf. destruct (mem_str _ _) eqn:M; [discriminate|].
      apply ebind_some in E as (v & y2 & E2 & E). apply (step_expr fs file) in E2. destruct (E2 W) as (W2 & [L2 _] & _).
      assert (Nc : f <> [c_caret]) by (intros ->; discriminate).
      apply IH in E as (I1 & I2 & I3 & I4 & I5); [|exact W2]. rewrite map_app in I2. split; [|split; [|split; [|split]]].
      * constructor; auto. intros X. apply (I2 f X Kf). apply in_app_iff. right. left. auto.
      * intros f' [<-|X] Y Z; [apply mem_str_iff in Z; congruence|]. apply (I2 f' X Y). apply in_app_iff. auto.
      * intros f' [<-|X] Y Z; [unfold is_field_name in Y; unfold field_item in Kf; congruence|].
        specialize (I3 f' X Y Z). destruct (assoc f' (fst x)) eqn:B; auto. exfalso. apply L2 in B. congruence.
      * intros X [Y|Y]; [congruence|]. apply I4 in X. auto.
      * rewrite I5. cbn [In]. intuition congruence.
    + discriminate.
Qed.
Theorem C27_no_name_twice fs g text o : from_str fs g text = Some (OOk o) ->
  NoDup (names_of text) /\ (obj_parent o <> None <-> In [c_caret] (names_of text)).
Proof.
  rewrite C41_accepted_iff. intros (its & x & R & E). destruct R as (w & t & c & -> & W & R & L).
  rewrite (names_items _ _ R _ _ W L). unfold ev_doc in E. apply ebind_some in E as (r & y & E & E').
  apply items_names in E as (H1 & _ & _ & _ & H2); [|constructor]. split; auto.
  apply fresh_ret in E'. first [injection E' as ->|subst o]. cbn [obj_parent]. rewrite H2. intuition congruence.
Qed.
End P.

(** ** Concrete cases *)
Section Ex.
#[local] Instance ascii : Unicode := {| u_alpha := fun _ => false; u_debug := fun c => [c] |}.
Example C26_ex : mode_after (lit "a: [1") = Code /\ ws (lit " ") /\ ws (lit "# x ]
	") /\ exists o, from_str no_fs g0 (lit "a: [1" ++ lit " " ++ lit "2]") = Some (OOk o).
Proof.
  split; [reflexivity|]. split; [repeat constructor|]. split; [|eexists; vm_compute; reflexivity].
  apply (ws_comment (lit " x ]") [9]); repeat constructor; discriminate.
Qed.
(** The place matters: inside a string white space is data. *)
Example C26_ex_string : mode_after (lit "a: ""x") = Quoted /\ exists o o',
  from_str no_fs g0 (lit "a: ""x" ++ lit " " ++ lit "y""") = Some (OOk o) /\
  from_str no_fs g0 (lit "a: ""x" ++ lit "  " ++ lit "y""") = Some (OOk o') /\ obj_eqb o o' = false.
Proof. split; [reflexivity|]. eexists _, _. split; [vm_compute; reflexivity|]. split; [vm_compute; reflexivity|reflexivity]. Qed.
Example C41_ex_closed : open_brackets Code [] (lit "a: [(1]) ") = None /\ open_brackets Code [] (lit "a: [1") <> Some [] /\
  mode_after (lit "a: ""[") = Quoted.
Proof. split; [reflexivity|]. split; [discriminate|reflexivity]. Qed.
Example C25_ex_text : deepest Code 0 (lit "a: [[""[[["" (1)]] # [[[[") = 3.
Proof. reflexivity. Qed.
Example C27_ex_text : exists o, from_str no_fs g0 (lit "b:{x:1} @g:2 a:@g # c: 3
^:b") = Some (OOk o) /\ names_of (lit "b:{x:1} @g:2 a:@g # c: 3
^:b") = [lit "b"; lit "@g"; lit "a"; lit "^"].
Proof. eexists; split; [vm_compute; reflexivity|reflexivity]. Qed.
End Ex.

Print Assumptions C26_replace.
Print Assumptions C26_start.
Print Assumptions C26_end.
Print Assumptions C41_brackets_closed.
Print Assumptions C41_unclosed_rejected.
Print Assumptions C25_every_text.
Print Assumptions C27_every_text.
Print Assumptions C27_no_name_twice.
