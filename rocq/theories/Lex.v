(** * Lex: the texts of the grammar, seen through LexSpec.v. *)
From Verif Require Export LexSpec Prefix.
Open Scope N_scope.

Section Lex.
Context `{U : Unicode}.

(** ** Modes *)
Definition modes (m : mode) (t : str) : mode := fold_left step t m.
Lemma modes_app m a b : modes m (a ++ b) = modes (modes m a) b.
Proof. apply fold_left_app. Qed.
Lemma modes_comment b : Forall (fun c => c <> c_nl) b -> modes Comment b = Comment.
Proof.
  induction 1 as [|c b H F IH]; [reflexivity|]. cbn [modes fold_left step]. apply N.eqb_neq in H. rewrite H. exact IH.
Qed.
Lemma ws_code c : ch_is_whitespace c = true -> step Code c = Code.
Proof.
  intros H. cbn [step]. destruct (N.eqb_spec c c_hash) as [->|]; [discriminate|].
  destruct (N.eqb_spec c c_quote) as [->|]; [discriminate|reflexivity].
Qed.
Lemma modes_ws w : ws w -> modes Code w = Code.
Proof.
  induction 1 as [|c t Hc W IH|body t F W IH]; [reflexivity| |].
  - cbn [modes fold_left]. rewrite ws_code by auto. exact IH.
  - change (c_hash :: body ++ c_nl :: t) with ([c_hash] ++ body ++ [c_nl] ++ t). rewrite !modes_app.
    change (modes Code [c_hash]) with Comment. rewrite modes_comment by auto. exact IH.
Qed.

(** ** Pieces *)
Inductive piece := Tok (s : str) | Gap (w : str).
Definition ptext (p : piece) : str := match p with Tok s | Gap s => s end.
Definition text (ps : list piece) : str := flat_map ptext ps.
(** no white space and no comment starts inside, and the text ends in the code *)
Definition hard (s : str) : Prop :=
  modes Code s = Code /\
  forall a c b, s = a ++ c :: b -> modes Code a = Code -> ch_is_whitespace c = false /\ c <> c_hash.
Definition pok (p : piece) : Prop := match p with Tok s => s <> [] /\ hard s | Gap w => ws w end.
Fixpoint alt (ps : list piece) : Prop :=
  match ps with
  | Gap _ :: ps' => match ps' with Gap _ :: _ => False | _ => alt ps' end
  | _ :: ps' => alt ps'
  | [] => True
  end.
Definition first_tok (ps : list piece) : Prop := match ps with Gap _ :: _ => False | _ => True end.
Definition psame (p q : piece) : Prop :=
  match p, q with
  | Tok s, Tok s' => s = s'
  | Gap w, Gap w' => ws w' /\ (w' = [] -> w = [])
  | _, _ => False
  end.

Lemma alt_gap w ps : alt (Gap w :: ps) <-> first_tok ps /\ alt ps.
Proof. destruct ps as [|[]]; cbn; tauto. Qed.
Lemma alt_tok s ps : alt (Tok s :: ps) <-> alt ps.
Proof. reflexivity. Qed.
Lemma alt_app ps qs : alt ps -> alt qs -> first_tok qs -> alt (ps ++ qs).
Proof.
  induction ps as [|[s|w] ps IH]; intros A B F; [exact B| |].
  - change (alt (Tok s :: ps ++ qs)). apply alt_tok. apply IH; auto.
  - change (alt (Gap w :: ps ++ qs)). apply alt_gap. apply alt_gap in A as [A1 A2]. split; auto.
    destruct ps as [|[]]; auto.
Qed.
Lemma first_app ps qs : first_tok ps -> (ps = [] -> first_tok qs) -> first_tok (ps ++ qs).
Proof. destruct ps as [|[]]; cbn; auto. Qed.
Lemma text_app ps qs : text (ps ++ qs) = text ps ++ text qs.
Proof. apply flat_map_app. Qed.

Lemma hard_prefix_ws w1 s x b : ws w1 -> w1 <> [] -> hard s -> s <> [] -> w1 ++ b = s ++ x -> False.
Proof.
  intros W N [_ H] Ns E. destruct s as [|c s]; [auto|]. destruct (H [] c s eq_refl eq_refl) as [H1 H2].
  destruct W as [|c' t Hc _|]; [auto| |]; cbn in E; inversion E; subst; congruence.
Qed.
(** White space can be cut where it is code. *)
Lemma ws_cut : forall w, ws w -> forall a b, w = a ++ b -> modes Code a = Code -> ws a /\ ws b.
Proof.
  induction 1 as [|c t Hc W IH|body t F W IH]; intros a b E M.
  - symmetry in E. apply app_eq_nil in E as [-> ->]. split; constructor.
  - destruct a as [|c' a]; cbn in E; [subst b; split; constructor; auto|].
    inversion E; subst c' t. cbn [modes fold_left] in M. rewrite ws_code in M by auto.
    destruct (IH a b eq_refl M). split; auto. constructor; auto.
  - destruct a as [|c' a]; cbn [app] in E; [subst b; split; [constructor|apply ws_comment; auto]|].
    inversion E as [[Ec Ea]]. subst c'. clear E.
    assert (K : exists a', a = body ++ c_nl :: a' /\ t = a' ++ b).
    { change (modes Code (c_hash :: a)) with (modes Comment a) in M. clear IH W.
      revert a Ea M F. induction body as [|d body IHb]; intros a Ea M F.
      - destruct a as [|d a]; [discriminate M|]. cbn in Ea. inversion Ea; subst d t. exists a. auto.
      - inversion F as [|? ? Fd F']; subst. destruct a as [|d' a]; [discriminate M|].
        cbn in Ea. inversion Ea as [[Ed Ea']]. subst d'.
        cbn [modes fold_left step] in M. apply N.eqb_neq in Fd. rewrite Fd in M.
        destruct (IHb a Ea' M F') as (a' & -> & ->). exists a'. auto. }
    destruct K as (a' & -> & ->).
    assert (M' : modes Code a' = Code).
    { change (c_hash :: body ++ c_nl :: a') with ([c_hash] ++ body ++ [c_nl] ++ a') in M. rewrite !modes_app in M.
      change (modes Code [c_hash]) with Comment in M. rewrite modes_comment in M by auto. exact M. }
    destruct (IH a' b eq_refl M'). split; auto. apply ws_comment; auto.
Qed.
Lemma app_split {A} : forall (a b u v : list A), a ++ b = u ++ v ->
  (exists r, a = u ++ r /\ v = r ++ b) \/ (exists c r, u = a ++ c :: r /\ b = c :: r ++ v).
Proof.
  induction a as [|x a IH]; intros b u v E.
  - destruct u as [|y u]; cbn in E; [left; exists []; auto|right]. subst b. exists y, u. auto.
  - destruct u as [|y u]; cbn in E; [left; exists (x :: a); auto|]. inversion E; subst y.
    destruct (IH b u v H1) as [(r & -> & ->)|(c & r & -> & ->)]; [left; exists r; auto|right; exists c, r; auto].
Qed.

(** White space found in the code of a list of pieces is white space between the pieces. *)
Lemma splice w1 w2 : ws w1 -> w1 <> [] -> ws w2 -> w2 <> [] -> forall ps a b tail,
  Forall pok ps -> alt ps -> modes Code a = Code -> last_comment tail -> text ps ++ tail = a ++ w1 ++ b ->
  exists ps' tail', Forall2 psame ps ps' /\ last_comment tail' /\ text ps' ++ tail' = a ++ w2 ++ b.
Proof.
  intros W1 N1 W2 N2. induction ps as [|p ps IH]; intros a b tail F A M L E.
  - exfalso. cbn [text flat_map app] in E.
    assert (K : forall body, Forall (fun c => c <> c_nl) body -> forall a b, body = a ++ b -> modes Comment a = Comment).
    { intros body Fb a' b' ->. apply Forall_app in Fb as [Fb _]. apply modes_comment; auto. }
    assert (Ma : modes Code (a ++ w1) = Code) by (rewrite modes_app, M; apply modes_ws; auto).
    destruct L as [->|(body & -> & Fb)].
    + symmetry in E. apply app_eq_nil in E as [_ E]. apply app_eq_nil in E as [E _]. auto.
    + rewrite app_assoc in E. destruct (a ++ w1) as [|c r] eqn:Ea; [apply app_eq_nil in Ea as [_ Ea]; auto|].
      cbn in E. inversion E; subst c. change (modes Code (c_hash :: r)) with (modes Comment r) in Ma.
      rewrite (K body Fb r b) in Ma by auto. discriminate.
  - inversion F as [|? ? Hp F']; subst. cbn [text flat_map] in E. rewrite <- app_assoc in E.
    symmetry in E. apply app_split in E as [(a' & -> & E)|(c & r & Ep & E)].
    + (* further on *)
      assert (Mp : modes Code (ptext p) = Code).
      { destruct p; cbn in *; [apply Hp|apply modes_ws; auto]. }
      rewrite modes_app, Mp in M.
      assert (A' : alt ps) by (destruct p; [exact A|apply alt_gap in A; apply A]).
      destruct (IH a' b tail F' A' M L E) as (ps' & tail' & S & L' & E').
      exists (p :: ps'), tail'. split; [constructor; auto; destruct p; cbn in *; auto|]. split; auto.
      cbn [text flat_map]. rewrite <- !app_assoc. f_equal. exact E'.
    + destruct p as [s|w]; cbn [ptext] in *; subst.
      * (* in a token *)
        exfalso. destruct Hp as [_ [_ Hp]]. destruct (Hp a c r eq_refl M) as [H1 H2].
        destruct W1 as [|c' t Hc _|]; [auto| |]; cbn in E; inversion E; subst; congruence.
      * (* in white space *)
        cbn in Hp. destruct (ws_cut _ Hp _ _ eq_refl M) as [Wa Wr].
        assert (D : exists q, c :: r = w1 ++ q /\ ws q /\ b = q ++ text ps ++ tail).
        { change (w1 ++ b = (c :: r) ++ text ps ++ tail) in E. apply app_split in E as [(q & Eq & Et)|(d & q & Eq & Eb)].
          - destruct q as [|d q]; [exists []; rewrite app_nil_r in *; subst; cbn in *; repeat split; auto; [constructor]|].
            exfalso. destruct (ws_cut _ W1 _ _ Eq (modes_ws _ Wr)) as [_ Wq].
            destruct ps as [|[s|w] ps].
            + cbn in Et. destruct L as [->|(body & -> & Fb)]; [discriminate|].
              pose proof (modes_ws _ Wq) as Mq. cbn in Et. inversion Et; subst d.
              change (modes Code (c_hash :: q)) with (modes Comment q) in Mq. subst body. apply Forall_app in Fb as [Fb _].
              rewrite modes_comment in Mq by auto. discriminate.
            + inversion F' as [|? ? Hs _]; subst. destruct Hs as [Hs1 Hs2]. cbn [text flat_map ptext] in Et. rewrite <- app_assoc in Et.
              eapply (hard_prefix_ws (d :: q) s); eauto. discriminate.
            + destruct A.
          - exists (d :: q). split; auto. split; [|auto]. eapply (proj2 (ws_cut _ Wr _ _ Eq (modes_ws _ W1))). }
        destruct D as (q & Eq & Wq & ->). rewrite Eq in *.
        exists (Gap (a ++ w2 ++ q) :: ps), tail. split.
        { constructor; [cbn; split; [apply ws_app; auto; apply ws_app; auto|]|].
          - intros X. apply app_eq_nil in X as [_ X]. apply app_eq_nil in X as [X _]. exfalso. auto.
          - clear - F'. induction F' as [|[s|w'] ps H F IH]; constructor; cbn in *; auto. }
        split; auto. cbn [text flat_map ptext]. rewrite <- !app_assoc. reflexivity.
Qed.

(** ** The texts of the grammar in pieces *)
Definition no_last_gap (ps : list piece) : Prop := forall l w, ps <> l ++ [Gap w].
Definition flex {A} (K : list piece -> Prop) (R : A -> str -> Prop) (x : A) (t : str) : Prop :=
  exists ps, text ps = t /\ Forall pok ps /\ alt ps /\ first_tok ps /\ K ps /\
             forall ps', Forall2 psame ps ps' -> R x (text ps').
Definition Kval (ps : list piece) : Prop := ps <> [] /\ no_last_gap ps.
Definition Kany (ps : list piece) : Prop := True.

Lemma hard_chars s : Forall (fun c => ch_is_whitespace c = false /\ c <> c_hash /\ c <> c_quote) s -> hard s.
Proof.
  intros F. assert (M : forall s, Forall (fun c => ch_is_whitespace c = false /\ c <> c_hash /\ c <> c_quote) s -> modes Code s = Code).
  { induction 1 as [|c s' (H1 & H2 & H3) F' IH]; [reflexivity|]. cbn [modes fold_left step].
    apply N.eqb_neq in H2. apply N.eqb_neq in H3. rewrite H2, H3. exact IH. }
  split; [auto|]. intros a c b -> _. apply Forall_app in F as [_ F]. inversion F as [|? ? K _]; subst. split; apply K.
Qed.
Lemma modes_schars cs : Forall schar_ok cs -> modes Quoted (flat_map schar_text cs) = Quoted.
Proof.
  induction 1 as [|[c|c] cs H F IH]; [reflexivity| |]; cbn [flat_map schar_text app modes fold_left step].
  - destruct H as [H1 H2]. apply N.eqb_neq in H1. apply N.eqb_neq in H2. rewrite H1, H2. exact IH.
  - exact IH.
Qed.
(** inside a string there is no code *)
Lemma schars_cut cs : Forall schar_ok cs -> forall a b, flat_map schar_text cs = a ++ b -> modes Quoted a <> Code.
Proof.
  induction 1 as [|[c|c] cs H F IH]; intros a b E.
  - symmetry in E. apply app_eq_nil in E as [-> _]. discriminate.
  - destruct a as [|d a]; [discriminate|]. cbn in E. inversion E; subst d.
    destruct H as [K1 K2]. apply N.eqb_neq in K1. apply N.eqb_neq in K2. cbn [modes fold_left step]. rewrite K1, K2. eapply IH; eauto.
  - destruct a as [|d [|d' a]]; [discriminate| |]; cbn in E; inversion E; subst; [discriminate|].
    change (modes Quoted (c_bslash :: d' :: a)) with (modes Quoted a). eapply IH; eauto.
Qed.
Lemma hard_string cs : Forall schar_ok cs -> hard (c_quote :: flat_map schar_text cs ++ [c_quote]).
Proof.
  intros F. split.
  - change (modes Quoted (flat_map schar_text cs ++ [c_quote]) = Code). rewrite modes_app, modes_schars by auto. reflexivity.
  - intros a c b E M. destruct a as [|d a]; cbn [app] in E.
    + inversion E; subst c. split; [reflexivity|discriminate].
    + inversion E as [[Ed E']]. subst d. clear E. change (modes Quoted a = Code) in M. exfalso.
      apply app_split in E' as [(r & Ea & Eb)|(e & r & Ea & Eb)].
      * eapply schars_cut; eauto.
      * inversion Eb as [[Ee Er]]. destruct r; discriminate.
Qed.

(** characters of names and numbers *)
Definition quiet (c : char) : Prop :=
  (ch_is_whitespace c = false /\ c <> c_hash /\ c <> c_quote) /\ closer c = None /\ is_closer c = false /\ c <> c_colon.
Lemma quiet_hard s : Forall quiet s -> hard s.
Proof. intros F. apply hard_chars. eapply Forall_impl; [|exact F]. intros c H. apply H. Qed.
Definition noisy (c : char) : bool :=
  ch_is_whitespace c || (c =? c_hash) || (c =? c_quote) || (c =? c_lbrack) || (c =? c_rbrack) || (c =? c_lparen) ||
  (c =? c_rparen) || (c =? c_lbrace) || (c =? c_rbrace) || (c =? c_lt) || (c =? c_gt) || (c =? c_colon).
Lemma quiet_iff c : noisy c = false -> quiet c.
Proof.
  unfold noisy, quiet, closer, is_closer. rewrite !orb_false_iff.
  intros (((((((((((H0 & H1) & H2) & H3) & H4) & H5) & H6) & H7) & H8) & H9) & H10) & H11).
  rewrite H3, H4, H5, H6, H7, H8, H9, H10. apply N.eqb_neq in H1. apply N.eqb_neq in H2. apply N.eqb_neq in H11. tauto.
Qed.
Lemma lod_quiet c : letter_or_digit c -> quiet c.
Proof.
  intros H. apply quiet_iff. pose proof (lod_range _ H) as R. apply head_letter in H as [H _].
  unfold is_whitespace in H. apply orb_false_iff in H as [H1 H2]. unfold noisy. rewrite H1, H2. cbn [orb].
  rewrite !orb_false_iff, !N.eqb_neq. lia.
Qed.
Lemma num_quiet c : num_char c = true -> quiet c.
Proof.
  intros H. apply quiet_iff. unfold num_char, is_digit in H. unfold noisy, ch_is_whitespace.
  repeat rewrite orb_true_iff in H. rewrite andb_true_iff, !N.leb_le, !N.eqb_eq in H.
  repeat rewrite orb_false_iff. repeat rewrite andb_false_iff. rewrite ?N.eqb_neq, ?N.leb_nle. lia.
Qed.
Lemma op_quiet op : quiet (op_text op).
Proof. apply quiet_iff. destruct op; reflexivity. Qed.
Lemma unop_quiet op : quiet (unop_text op).
Proof. apply quiet_iff. destruct op; reflexivity. Qed.
Lemma name_quiet glob n : var_name glob n -> Forall quiet ((if glob then [c_at] else []) ++ n).
Proof.
  intros H. apply Forall_app. split; [destruct glob; repeat constructor; apply quiet_iff; reflexivity|].
  eapply Forall_impl; [apply lod_quiet|]. eapply name_lod; eauto.
Qed.
Lemma name_nonempty glob n : var_name glob n -> (if glob then [c_at] else []) ++ n <> [].
Proof. intros (c & r & -> & _). destruct glob; discriminate. Qed.
Lemma item_quiet f : item_name f -> Forall quiet f /\ f <> [].
Proof.
  intros (c & r & Hf & Hc & Hr). assert (K : Forall quiet (c :: r)).
  { constructor; [destruct Hc as [Hc| ->]; [apply lod_quiet, letter_lod; auto|apply quiet_iff; reflexivity]|].
    eapply Forall_impl; [apply lod_quiet|]. auto. }
  destruct Hf as [->| ->]; split; try discriminate; auto. constructor; auto. apply quiet_iff; reflexivity.
Qed.

Lemma same_app ps qs rs : Forall2 psame (ps ++ qs) rs -> exists ps' qs', rs = ps' ++ qs' /\ Forall2 psame ps ps' /\ Forall2 psame qs qs'.
Proof. intros H. apply Forall2_app_inv_l in H as (l1 & l2 & H1 & H2 & ->). eauto. Qed.
Lemma same_tok s ps rs : Forall2 psame (Tok s :: ps) rs -> exists rs', rs = Tok s :: rs' /\ Forall2 psame ps rs'.
Proof. intros H. inversion H as [|? y ? l H1 H2]; subst. destruct y; cbn in H1; [subst; eauto|destruct H1]. Qed.
Lemma same_gap w ps rs : Forall2 psame (Gap w :: ps) rs ->
  exists w' rs', rs = Gap w' :: rs' /\ ws w' /\ (w' = [] -> w = []) /\ Forall2 psame ps rs'.
Proof. intros H. inversion H as [|? y ? l H1 H2]; subst. destruct y; cbn in H1; [destruct H1|]. destruct H1. eauto 7. Qed.
Lemma same_nil rs : Forall2 psame [] rs -> rs = [].
Proof. intros H. inversion H. auto. Qed.

Lemma nlg_app ps qs : no_last_gap qs -> (qs = [] -> no_last_gap ps) -> no_last_gap (ps ++ qs).
Proof.
  intros Q P l w E. destruct (@exists_last _ qs) as (qs' & q & Eq).
  { intros ->. rewrite app_nil_r in E. eapply P; eauto. }
  subst qs. rewrite app_assoc in E. apply app_inj_tail in E as [_ ->]. eapply Q; eauto.
Qed.
Lemma nlg_tok s : no_last_gap [Tok s].
Proof. intros l w E. change [Tok s] with ([] ++ [Tok s]) in E. apply app_inj_tail in E as [_ E]. discriminate. Qed.
Lemma nlg_nil : no_last_gap [].
Proof. intros l w E. destruct l; discriminate. Qed.
Lemma alt_snoc_gap ps w : alt ps -> no_last_gap ps -> alt (ps ++ [Gap w]).
Proof.
  induction ps as [|p ps IH]; intros A N; [exact I|]. destruct ps as [|q ps].
  - destruct p as [s|w']; [exact I|]. exfalso. apply (N [] w'). reflexivity.
  - assert (N' : no_last_gap (q :: ps)) by (intros l w' E; apply (N (p :: l) w'); rewrite E; reflexivity).
    destruct p as [s|w'].
    + apply alt_tok. apply IH; auto.
    + apply alt_gap in A as [A1 A2]. change (alt (Gap w' :: (q :: ps) ++ [Gap w])). apply alt_gap. split; [destruct q; exact A1|]. apply IH; auto.
Qed.
Lemma alt_mid ps w qs : alt ps -> no_last_gap ps -> alt qs -> first_tok qs -> alt (ps ++ Gap w :: qs).
Proof.
  intros A N B F. change (Gap w :: qs) with ([Gap w] ++ qs). rewrite app_assoc. apply alt_app; auto. apply alt_snoc_gap; auto.
Qed.

(** one token *)
Lemma flex_tok {A} (R : A -> str -> Prop) x s : s <> [] -> hard s -> R x s -> flex Kval R x s.
Proof.
  intros N H K. exists [Tok s]. cbn [text flat_map ptext]. rewrite app_nil_r. split; [auto|]. split; [constructor; [split; auto|constructor]|].
  split; [exact I|]. split; [exact I|]. split; [split; [discriminate|apply nlg_tok]|].
  intros ps' S. apply same_tok in S as (rs & -> & S). apply same_nil in S. subst.
  cbn [text flat_map ptext]. rewrite app_nil_r. auto.
Qed.
Lemma flex_nil {A} (K : list piece -> Prop) (R : A -> str -> Prop) x : K [] -> R x [] -> flex K R x [].
Proof.
  intros K0 K1. exists []. split; [auto|]. split; [constructor|]. split; [exact I|]. split; [exact I|]. split; [exact K0|].
  intros ps' S. apply same_nil in S. subst. auto.
Qed.
(** one after the other *)
Lemma flex_seq {A B C} (R : A -> str -> Prop) (S : B -> str -> Prop) (T : C -> str -> Prop) x y z t u :
  flex Kval R x t -> flex no_last_gap S y u -> (forall t' u', R x t' -> S y u' -> T z (t' ++ u')) -> flex Kval T z (t ++ u).
Proof.
  intros (ps & <- & P & A1 & A2 & [K1 K2] & H) (qs & <- & P' & B1 & B2 & K3 & H') J.
  exists (ps ++ qs). split; [apply text_app|]. split; [apply Forall_app; auto|]. split; [apply alt_app; auto|].
  split; [apply first_app; auto|]. split; [split; [destruct ps; [auto|discriminate]|apply nlg_app; auto]|].
  intros rs E. apply same_app in E as (ps' & qs' & -> & E1 & E2). rewrite text_app. auto.
Qed.
(** a value, white space, the rest *)
Lemma flex_gap {A B C} (K : list piece -> Prop) (R : A -> str -> Prop) (S : B -> str -> Prop) (T : C -> str -> Prop) x y z t w u :
  (forall l qs, K qs -> K (l ++ Gap w :: qs)) ->
  flex Kval R x t -> ws w -> flex K S y u ->
  (forall t' w' u', R x t' -> ws w' -> (w' = [] -> w = []) -> S y u' -> T z (t' ++ w' ++ u')) -> flex K T z (t ++ w ++ u).
Proof.
  intros KK (ps & <- & P & A1 & A2 & [K1 K2] & H) W (qs & <- & P' & B1 & B2 & K3 & H') J.
  exists (ps ++ Gap w :: qs). split; [apply text_app|]. split; [apply Forall_app; split; auto; constructor; auto|].
  split; [apply alt_mid; auto|]. split; [destruct ps as [|[]]; [congruence|exact I|destruct A2]|].
  split; [auto|].
  intros rs E. apply same_app in E as (ps' & qs' & -> & E1 & E2). apply same_gap in E2 as (w' & rs' & -> & W' & N & E2).
  rewrite text_app. change (text (Gap w' :: rs')) with (w' ++ text rs'). auto.
Qed.
Lemma flex_weak {A} (K K' : list piece -> Prop) (R : A -> str -> Prop) x t : (forall ps, K ps -> K' ps) -> flex K R x t -> flex K' R x t.
Proof. intros H (ps & E & P & A1 & A2 & K1 & J). exists ps. repeat (split; auto). Qed.

Lemma hard_one c : noisy c = false \/ In c [c_lbrack; c_rbrack; c_lparen; c_rparen; c_lbrace; c_rbrace; c_lt; c_gt; c_colon] -> hard [c].
Proof.
  intros [H|H]; [apply quiet_hard; repeat constructor; apply quiet_iff in H; apply H|].
  apply hard_chars. repeat constructor; cbn in H; repeat destruct H as [<-|H]; try reflexivity; try discriminate; destruct H.
Qed.
(** a token as a language of its own *)
Definition is_tok (s t : str) : Prop := t = s.
Lemma flex_is s : s <> [] -> hard s -> flex Kval is_tok s s.
Proof. intros. apply flex_tok; auto. reflexivity. Qed.
Lemma Kval_nlg ps : Kval ps -> no_last_gap ps.
Proof. intros [_ H]. auto. Qed.
Lemma nlg_cons_gap w l qs : Kval qs -> Kval (l ++ Gap w :: qs).
Proof.
  intros [N H]. split; [destruct l; discriminate|]. change (Gap w :: qs) with ([Gap w] ++ qs). rewrite app_assoc.
  apply nlg_app; [auto|]. intros ->. congruence.
Qed.
(** something that may be empty or end with white space, a token after it *)
Lemma flex_end {A B} (K : list piece -> Prop) (R : A -> str -> Prop) (T : B -> str -> Prop) x z t s : s <> [] -> hard s ->
  flex K R x t -> (forall t', R x t' -> T z (t' ++ s)) -> flex Kval T z (t ++ s).
Proof.
  intros N Hs (ps & <- & P & A1 & A2 & _ & H) J. exists (ps ++ [Tok s]).
  split; [rewrite text_app; cbn; rewrite app_nil_r; auto|].
  split; [apply Forall_app; split; auto; constructor; [split; auto|constructor]|].
  split; [apply alt_app; cbn; auto|]. split; [apply first_app; cbn; auto|].
  split; [split; [destruct ps; discriminate|apply nlg_app; [apply nlg_tok|discriminate]]|].
  intros rs E. apply same_app in E as (ps' & qs' & -> & E1 & E2). apply same_tok in E2 as (z' & -> & E2). apply same_nil in E2. subst z'.
  rewrite text_app. cbn [text flat_map ptext]. rewrite app_nil_r. auto.
Qed.
(** a bracket, white space, something, a bracket *)
Lemma flex_around {A B} K (R : A -> str -> Prop) (S : B -> str -> Prop) x y o w t c : hard [o] -> hard [c] -> ws w -> flex K R x t ->
  (forall w' t', ws w' -> R x t' -> S y (o :: w' ++ t' ++ [c])) -> flex Kval S y (o :: w ++ t ++ [c]).
Proof.
  intros Ho Hc W F J. change (o :: w ++ t ++ [c]) with ([o] ++ w ++ (t ++ [c])).
  eapply (flex_gap Kval is_tok (fun x u => exists t', R x t' /\ u = t' ++ [c]) S [o] x y); auto.
  - intros. apply nlg_cons_gap; auto.
  - apply flex_is; auto. discriminate.
  - eapply flex_end; [discriminate|auto|exact F|]. eauto.
  - intros t' w' u' -> W' _ (v & Rv & ->). apply J; auto.
Qed.

Theorem flex_all :
  (forall a t, r_atom a t -> flex Kval r_atom a t) /\ (forall e t, r_expr e t -> flex Kval r_expr e t) /\
  (forall l t, r_chain l t -> flex no_last_gap r_chain l t) /\ (forall es t, r_elems es t -> flex Kany r_elems es t) /\
  (forall its t, r_items its t -> flex Kany r_items its t).
Proof.
  apply r_mut.
  - (* num *) intros w H. apply flex_tok; [destruct H as (c & r & -> & _); discriminate| |constructor; auto].
    apply quiet_hard. destruct H as (c & r & -> & H & _ & F). constructor; [apply num_quiet; auto|].
    eapply Forall_impl; [|exact F]. intros. apply num_quiet; auto.
  - (* str *) intros cs F. apply flex_tok; [discriminate|apply hard_string; auto|constructor; auto].
  - (* var *) intros glob n H. apply flex_tok; [eapply name_nonempty; eauto|apply quiet_hard, name_quiet; auto|constructor; auto].
  - (* dot *) intros glob n sub t H D R IH.
    replace ((if glob then [c_at] else []) ++ n ++ c_dot :: t) with ((((if glob then [c_at] else []) ++ n) ++ [c_dot]) ++ t)
      by (rewrite <- !app_assoc; reflexivity).
    eapply (flex_seq is_tok r_atom r_atom); [apply flex_is| |].
    + destruct ((if glob then [c_at] else []) ++ n); discriminate.
    + apply quiet_hard, Forall_app. split; [apply name_quiet; auto|repeat constructor; try reflexivity; discriminate].
    + eapply flex_weak; [apply Kval_nlg|exact IH].
    + intros t' u' -> Hu. rewrite <- !app_assoc. apply r_dot; auto.
  - (* un *) intros op a t R IH. change (unop_text op :: t) with ([unop_text op] ++ t).
    eapply (flex_seq is_tok r_atom r_atom); [apply flex_is; [discriminate|apply quiet_hard; repeat constructor; apply unop_quiet]| |].
    + eapply flex_weak; [apply Kval_nlg|exact IH].
    + intros t' u' -> Hu. apply r_un; auto.
  - intros es w t W R IH. eapply flex_around; eauto; try (apply hard_one; right; cbn; auto 10). intros. apply r_arr; auto.
  - intros es w t W R IH. eapply flex_around; eauto; try (apply hard_one; right; cbn; auto 10). intros. apply r_tup; auto.
  - intros es w t W R IH. eapply flex_around; eauto; try (apply hard_one; right; cbn; auto 10). intros. apply r_obj; auto.
  - (* inc1 *) intros e w t w' W R IH W'.
    replace (c_lt :: w ++ t ++ w' ++ [c_gt]) with (c_lt :: w ++ (t ++ w' ++ []) ++ [c_gt]) by (rewrite app_nil_r, <- app_assoc; reflexivity).
    eapply (flex_around Kany (fun e u => exists t' v, u = t' ++ v /\ r_expr e t' /\ ws v)); [apply hard_one; right; cbn; auto 10..|exact W| |].
    + eapply (flex_gap Kany r_expr (fun (_ : unit) u => u = []) _ e tt); [exact (fun _ _ _ => I)|exact IH|exact W'|apply flex_nil; [exact I|auto]|].
      intros t' v u' Ht Wv _ ->. rewrite app_nil_r. eauto.
    + intros w1 u W1 (t' & v & -> & Ht & Wv). rewrite <- app_assoc. apply r_inc1; auto.
  - (* inc2 *) intros e e2 w t w' t2 w2 W R IH W' N R2 IH2 W2.
    replace (c_lt :: w ++ t ++ w' ++ t2 ++ w2 ++ [c_gt]) with (c_lt :: w ++ (t ++ w' ++ (t2 ++ w2 ++ [])) ++ [c_gt])
      by (rewrite app_nil_r, <- !app_assoc; reflexivity).
    eapply (flex_around Kany (fun p u => exists t' w' u' v, u = t' ++ w' ++ u' ++ v /\ r_expr (fst p) t' /\ ws w' /\ w' <> [] /\ r_expr (snd p) u' /\ ws v)
             _ (e, e2)); [apply hard_one; right; cbn; auto 10..|exact W| |].
    + eapply (flex_gap Kany r_expr (fun e u => exists t' v, u = t' ++ v /\ r_expr e t' /\ ws v) _ e e2); [exact (fun _ _ _ => I)|exact IH|auto| |].
      * eapply (flex_gap Kany r_expr (fun (_ : unit) u => u = []) _ e2 tt); [exact (fun _ _ _ => I)|exact IH2|exact W2|apply flex_nil; [exact I|auto]|].
        intros t' v u' Ht Wv _ ->. rewrite app_nil_r. eauto.
      * intros t' v u' Ht Wv Nv (t3 & v3 & -> & Ht3 & Wv3). exists t', v, t3, v3. cbn [fst snd]. repeat (split; auto).
    + intros w1 u W1 (t' & v & u' & v2 & -> & Ht & Wv & Nv & Hu & Wv2). cbn [fst snd] in *. rewrite <- !app_assoc. apply r_inc2; auto.
  - (* expr *) intros a l t t' R IH R' IH'. eapply (flex_seq r_atom r_chain); eauto. intros. apply r_ex; auto.
  - apply flex_nil; [apply nlg_nil|constructor].
  - (* chain *) intros op a l t t' R IH R' IH'. change (op_text op :: t ++ t') with ([op_text op] ++ (t ++ t')).
    eapply flex_weak; [apply Kval_nlg|].
    eapply (flex_seq is_tok (fun p u => exists t' u', u = t' ++ u' /\ r_atom (fst p) t' /\ r_chain (snd p) u') _ [op_text op] (a, l)).
    + apply flex_is; [discriminate|apply quiet_hard; repeat constructor; apply op_quiet].
    + eapply flex_weak; [apply Kval_nlg|]. eapply (flex_seq r_atom r_chain _ a l (a, l)); [exact IH|exact IH'|]. intros. cbn [fst snd]. eauto.
    + intros t1 u1 -> (t2 & u2 & -> & H1 & H2). cbn [fst snd] in *. apply (r_ccons op a l t2 u2); auto.
  - apply flex_nil; [exact I|constructor].
  - (* elems *) intros e es t w t' R IH W D R' IH'. eapply (flex_gap Kany r_expr r_elems); [exact (fun _ _ _ => I)|eauto..].
    intros t1 w1 u1 H1 W1 N1 H2. apply r_econs; auto. destruct D; auto.
  - apply flex_nil; [exact I|constructor].
  - (* items *) intros f e its w t w' t' Hf W R IH W' D R' IH'. apply item_quiet in Hf as Hq. destruct Hq as [Fq Nq].
    replace (f ++ c_colon :: w ++ t ++ w' ++ t') with ((f ++ [c_colon]) ++ w ++ (t ++ w' ++ t')) by (rewrite <- app_assoc; reflexivity).
    eapply (flex_gap Kany is_tok (fun p u => exists t1 w1 u1, u = t1 ++ w1 ++ u1 /\ r_expr (fst p) t1 /\ ws w1 /\ (snd p = [] \/ w1 <> []) /\ r_items (snd p) u1)
             _ (f ++ [c_colon]) (e, its)); [exact (fun _ _ _ => I)| |auto| |].
    + apply flex_is; [destruct f; discriminate|]. apply hard_chars, Forall_app. split.
      * eapply Forall_impl; [|exact Fq]. intros c H. apply H.
      * repeat constructor; discriminate.
    + eapply (flex_gap Kany r_expr r_items _ e its (e, its)); [exact (fun _ _ _ => I)|exact IH|auto|exact IH'|].
      intros t1 w1 u1 H1 W1 N1 H2. exists t1, w1, u1. cbn [fst snd]. repeat (split; auto). destruct D; auto.
    + intros t0 w0 u0 -> W0 _ (t1 & w1 & u1 & -> & H1 & W1 & D1 & H2). cbn [fst snd] in *. rewrite <- app_assoc. apply (r_icons f e its w0 t1 w1 u1); auto.
Qed.
End Lex.
