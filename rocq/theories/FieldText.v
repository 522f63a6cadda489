(** * FieldText: exchanging the names of two fields: texts. *)
From Verif Require Export FieldEval.
From Verif Require Import Lex Unique.
From Coq Require String.
Import String.StringSyntax.
Open Scope N_scope.

Section A.
Context `{U : Unicode}.
Lemma wc_iff c : word_char c = true <-> letter_or_digit c.
Proof. unfold word_char, letter_or_digit, letter. rewrite !Bool.orb_true_iff, N.eqb_eq. tauto. Qed.
Variables x y : str.
Hypothesis Hx : legal_field x.
Hypothesis Hy : legal_field y.
Notation r := (swap x y).
Notation ren := (rename_names r).
Definition is_letter (c : char) : bool := ch_is_alphabetic c || (c =? c_under).
Definition wordy (n : str) : Prop := match n with c :: t => is_letter c = true /\ forallb word_char t = true | [] => False end.
Lemma letter_word c : is_letter c = true -> word_char c = true.
Proof. unfold is_letter, word_char. intros ->. reflexivity. Qed.
Lemma letter_iff c : is_letter c = true <-> letter c.
Proof. unfold is_letter, letter. rewrite Bool.orb_true_iff, N.eqb_eq. tauto. Qed.
Lemma legal_wordy n : legal_field n -> wordy n.
Proof.
  intros (c & t & -> & L & F & _). split; [apply letter_iff; exact L|]. apply forallb_forall. intros z Hz. rewrite Forall_forall in F.
  apply wc_iff. destruct (F z Hz) as [A|[A|A]]; [left; left; auto|right; auto|left; right; auto].
Qed.
Lemma swap_wordy n : wordy n -> wordy (r n).
Proof. intros W. destruct (sw_cases x y Hx Hy n) as [E|[_ L]]; [rewrite E; exact W|apply legal_wordy; exact L]. Qed.
Lemma wordy_words n : wordy n -> forallb word_char n = true.
Proof. destruct n as [|c t]; [intros []|]. intros [L W]. cbn [forallb]. rewrite (letter_word c L), W. reflexivity. Qed.

(** What may follow a name, a number or a mark. *)
Definition ends (t : str) : Prop := match t with c :: _ => word_char c = false /\ num_char c = false /\ c <> c_caret | [] => True end.
Lemma letter_num c : word_char c = false -> is_letter c = false.
Proof. destruct (is_letter c) eqn:L; [|reflexivity]. apply letter_word in L. congruence. Qed.
(** At such a place nothing is being read. *)
Lemma ren_end k rest : ends rest -> ren Code k rest = match k with TName n => r n | _ => [] end ++ ren Code TNothing rest.
Proof.
  destruct rest as [|c rest]; [intros _; cbn; rewrite app_nil_r; reflexivity|]. intros (W & N & C). cbn [rename_names].
  assert (D : c =? c_dot = false) by (apply N.eqb_neq; intros ->; discriminate). apply N.eqb_neq in C.
  assert (G : goes_on k c = false) by (destruct k; cbn [goes_on]; rewrite ?W, ?N, ?C; reflexivity). rewrite G.
  assert (E : dot_after k c = false) by (destruct k; cbn [dot_after]; auto). rewrite E. reflexivity.
Qed.
Lemma ren_dot k rest : k <> TNothing -> k <> TNumber -> ren Code k (c_dot :: rest) = match k with TName n => r n | _ => [] end ++ c_dot :: ren Code TNothing rest.
Proof. intros A B. destruct k; try congruence; reflexivity. Qed.
Lemma ren_name u : forall n rest, forallb word_char u = true -> ren Code (TName n) (u ++ rest) = ren Code (TName (n ++ u)) rest.
Proof.
  induction u as [|c u IH]; intros n rest H; [rewrite app_nil_r; reflexivity|]. cbn [forallb] in H. apply andb_prop in H as [H1 H2].
  cbn [app rename_names goes_on]. rewrite H1, IH by auto. rewrite <- app_assoc. reflexivity.
Qed.
Lemma ren_wordy n rest : wordy n -> ren Code TNothing (n ++ rest) = ren Code (TName n) rest.
Proof.
  destruct n as [|c t]; [intros []|]. intros [L W]. cbn [app rename_names goes_on dot_after]. fold (is_letter c). rewrite L. apply ren_name. exact W.
Qed.
Lemma ren_run k u : forall rest, (forall n, k <> TName n) -> forallb (goes_on k) u = true -> ren Code k (u ++ rest) = u ++ ren Code k rest.
Proof.
  induction u as [|c u IH]; intros rest N H; [reflexivity|]. cbn [forallb] in H. apply andb_prop in H as [H1 H2].
  cbn [app rename_names]. rewrite H1. destruct k; try (rewrite IH by auto; reflexivity). exfalso. eapply N. reflexivity.
Qed.
Lemma ren_other c rest : is_letter c = false -> ren Code TNothing (c :: rest) = c :: ren (step Code c) (begins c) rest.
Proof. intros L. cbn [rename_names goes_on dot_after app]. fold (is_letter c). rewrite L. reflexivity. Qed.
Lemma begins_code c : begins c <> TNothing -> step Code c = Code.
Proof.
  unfold begins. destruct (num_char c) eqn:N; [intros _; apply num_quiet in N as ((_ & H1 & H2) & _)|].
  - cbn. apply N.eqb_neq in H1. apply N.eqb_neq in H2. rewrite H1, H2. reflexivity.
  - destruct (N.eqb_spec c c_at) as [->|]; [reflexivity|]. destruct (N.eqb_spec c c_caret) as [->|]; [reflexivity|]. cbn. congruence.
Qed.
Lemma begins_noname c n : begins c <> TName n.
Proof. unfold begins. destruct (num_char c); [discriminate|]. destruct (_ || _); discriminate. Qed.

(** ** Twice is nothing *)
Lemma cut (p : char -> bool) t : exists u rest, t = u ++ rest /\ forallb p u = true /\ match rest with c :: _ => p c = false | [] => True end.
Proof.
  induction t as [|c t (u & rest & -> & H & N)]; [exists [], []; repeat split|]. destruct (p c) eqn:W.
  - exists (c :: u), rest. cbn. rewrite W, H. auto.
  - exists [], (c :: u ++ rest). repeat split. exact W.
Qed.
(** The end of a token, then nothing being read. *)
Lemma ren_stop k c rest : goes_on k c = false -> k <> TNothing ->
  exists m, ren Code k (c :: rest) = match k with TName n => r n | _ => [] end ++ ren m TNothing (c :: rest) \/
            (c = c_dot /\ ren Code k (c :: rest) = match k with TName n => r n | _ => [] end ++ c :: ren Code TNothing rest).
Proof.
  intros G N. exists Code. destruct (dot_after k c) eqn:D.
  - right. assert (c = c_dot) as -> by (destruct k; cbn in D; try discriminate; apply N.eqb_eq; exact D). split; [reflexivity|]. apply ren_dot; [exact N|].
    intros ->. discriminate.
  - left. cbn [rename_names]. rewrite G, D. cbn [goes_on dot_after app]. reflexivity.
Qed.
Definition pre (k : token) : str := match k with TName n => r n | _ => [] end.
Lemma ren_after k c rest : goes_on k c = false -> ren Code k (c :: rest) = pre k ++ if dot_after k c then c :: ren Code TNothing rest else ren Code TNothing (c :: rest).
Proof. intros G. cbn [rename_names]. rewrite G. destruct (dot_after k c) eqn:D; [reflexivity|]. cbn [goes_on dot_after app]. reflexivity. Qed.
(** The first character stays, unless it is a letter. *)
Lemma ren_first c rest : is_letter c = false -> exists q, ren Code TNothing (c :: rest) = c :: q.
Proof. intros L. rewrite ren_other by exact L. eauto. Qed.
Lemma after_letter k c : goes_on k c = false -> k <> TNothing -> is_letter c = false.
Proof. intros G N. apply letter_num. destruct k; cbn in G; try congruence; apply Bool.orb_false_iff in G as [G _]; exact G. Qed.
Lemma ren_ren : forall k t m, (length t <= k)%nat -> ren m TNothing (ren m TNothing t) = t.
Proof.
  induction k as [|k IH]; intros t m L; [destruct t; [destruct m; reflexivity|cbn in L; lia]|]. destruct t as [|c t]; [destruct m; reflexivity|]. cbn [length] in L.
  assert (G : forall m, m <> Code -> forall s, ren m TNothing (c :: s) = c :: ren (step m c) TNothing s) by (intros m' N s; destruct m'; [congruence|reflexivity..]).
  destruct m; [|rewrite !G by discriminate; f_equal; apply IH; lia..].
  (* the token at the front, and what follows it *)
  assert (Stop : forall K rest, K <> TNothing -> (length rest <= k)%nat -> match rest with d :: _ => goes_on K d = false | [] => True end ->
    exists q, ren Code K rest = pre K ++ q /\ match q with d :: _ => goes_on K d = false | [] => True end /\
      forall K', K' <> TNothing -> (forall d, goes_on K' d = goes_on K d) -> (forall d, dot_after K' d = dot_after K d) -> ren Code K' q = pre K' ++ rest).
  { intros K rest NK Lr Hr. destruct rest as [|d rest].
    - exists []. rewrite app_nil_r. split; [reflexivity|]. split; [exact I|]. intros K' N' _ _. rewrite app_nil_r. reflexivity.
    - rewrite ren_after by exact Hr. eexists. split; [reflexivity|]. pose proof (after_letter K d Hr NK) as Ld. destruct (dot_after K d) eqn:D.
      + split; [exact Hr|]. intros K' N' Eg Ed. rewrite ren_after by (rewrite Eg; exact Hr). rewrite Ed, D. do 2 f_equal. apply IH. cbn in Lr. lia.
      + destruct (ren_first d rest Ld) as (q & Eq). pose proof (IH (d :: rest) Code Lr) as E2. rewrite Eq in *. split; [exact Hr|].
        intros K' N' Eg Ed. rewrite ren_after by (rewrite Eg; exact Hr). rewrite Ed, D. f_equal. exact E2. }
  destruct (is_letter c) eqn:Lc.
  - destruct (cut word_char t) as (u & rest & -> & W & Hr). assert (Wn : wordy (c :: u)) by (split; auto).
    change (c :: u ++ rest) with ((c :: u) ++ rest). rewrite (ren_wordy _ _ Wn). rewrite app_length in L.
    destruct (Stop (TName (c :: u)) rest) as (q & -> & Hq & Back); [discriminate|lia|exact Hr|]. cbn [pre].
    rewrite (ren_wordy _ _ (swap_wordy _ Wn)), Back by (try discriminate; reflexivity). cbn [pre]. rewrite sw_sw. reflexivity.
  - rewrite ren_other by exact Lc. destruct (begins c) eqn:B; [|exfalso; eapply begins_noname; eauto|..].
    + rewrite ren_other, B by exact Lc. f_equal. apply IH. lia.
    + assert (step Code c = Code) as S by (apply begins_code; congruence). rewrite S. destruct (cut (goes_on TNumber) t) as (u & rest & -> & W & Hr). rewrite app_length in L.
      rewrite ren_run by (auto; discriminate). destruct (Stop TNumber rest) as (q & -> & Hq & Back); [discriminate|lia|exact Hr|]. cbn [pre app].
      rewrite ren_other, B, S, ren_run by (auto; discriminate). rewrite Back by (try discriminate; reflexivity). reflexivity.
    + assert (step Code c = Code) as S by (apply begins_code; congruence). rewrite S. destruct (cut (goes_on TMark) t) as (u & rest & -> & W & Hr). rewrite app_length in L.
      rewrite ren_run by (auto; discriminate). destruct (Stop TMark rest) as (q & -> & Hq & Back); [discriminate|lia|exact Hr|]. cbn [pre app].
      rewrite ren_other, B, S, ren_run by (auto; discriminate). rewrite Back by (try discriminate; reflexivity). reflexivity.
Qed.
Lemma swap_fields_twice t : swap_fields x y (swap_fields x y t) = t.
Proof. apply (ren_ren (length t)). lia. Qed.

(** ** Pieces *)
Definition strong (t u : str) : Prop := forall rest, ren Code TNothing (t ++ rest) = u ++ ren Code TNothing rest.
Definition weak (t u : str) : Prop := forall rest, ends rest -> ren Code TNothing (t ++ rest) = u ++ ren Code TNothing rest.
Lemma strong_weak t u : strong t u -> weak t u.
Proof. intros H rest _. apply H. Qed.
Lemma strong_app t u t' u' : strong t u -> strong t' u' -> strong (t ++ t') (u ++ u').
Proof. intros H K rest. rewrite <- !app_assoc, H, K. reflexivity. Qed.
Lemma strong_weak_app t u t' u' : strong t u -> weak t' u' -> weak (t ++ t') (u ++ u').
Proof. intros H K rest N. rewrite <- !app_assoc, H, K by auto. reflexivity. Qed.
Lemma weak_strong_app t u t' u' : weak t u -> strong t' u' -> t' <> [] -> ends t' -> strong (t ++ t') (u ++ u').
Proof. intros H K Ne N rest. rewrite <- !app_assoc, H; [rewrite K; reflexivity|]. destruct t'; [congruence|exact N]. Qed.
Lemma weak_app t u t' u' : weak t u -> weak t' u' -> ends t' -> weak (t ++ t') (u ++ u').
Proof. intros H K N rest Nr. rewrite <- !app_assoc, H; [rewrite K by auto; reflexivity|]. destruct t'; [exact Nr|exact N]. Qed.
Lemma strong_nil : strong [] [].
Proof. intros rest. reflexivity. Qed.
Lemma strong_char c : step Code c = Code -> is_letter c = false -> begins c = TNothing -> strong [c] [c].
Proof. intros S L B rest. cbn [app]. rewrite ren_other, B, S by exact L. reflexivity. Qed.
Lemma masked_ren : forall t m, (forall a b, t = a ++ b -> b <> [] -> modes m a <> Code) ->
  forall rest, ren m TNothing (t ++ rest) = t ++ ren (modes m t) TNothing rest.
Proof.
  induction t as [|c t IH]; intros m H rest; [reflexivity|].
  assert (Nm : m <> Code) by (apply (H [] (c :: t)); [auto|discriminate]).
  cbn [app rename_names]. change (modes m (c :: t)) with (modes (step m c) t). rewrite <- IH.
  - destruct m; auto. congruence.
  - intros a b E Nb. apply (H (c :: a) b); [rewrite E|]; auto.
Qed.
Lemma strong_string cs : Forall schar_ok cs -> strong (c_quote :: flat_map schar_text cs ++ [c_quote]) (c_quote :: flat_map schar_text cs ++ [c_quote]).
Proof.
  intros F rest. change (c_quote :: ren Quoted TNothing ((flat_map schar_text cs ++ [c_quote]) ++ rest) = c_quote :: (flat_map schar_text cs ++ [c_quote]) ++ ren Code TNothing rest).
  f_equal. rewrite masked_ren.
  - rewrite modes_app, modes_schars by auto. reflexivity.
  - intros a b E Nb. apply app_split in E as [(q & Ea & Eb)|(e & q & Ea & Eb)].
    + eapply schars_cut; eauto.
    + inversion Eb as [[Ee Er]]. symmetry in Er. apply app_eq_nil in Er as [_ Er]. congruence.
Qed.
Lemma white_ends c : ch_is_whitespace c = true -> word_char c = false /\ num_char c = false /\ c <> c_caret /\ c <> c_at.
Proof.
  intros H. repeat split.
  - apply Bool.not_true_is_false. intros W. apply wc_iff, lod_quiet in W as ((W & _) & _). congruence.
  - apply Bool.not_true_is_false. intros W. apply num_quiet in W as ((W & _) & _). congruence.
  - intros ->. discriminate.
  - intros ->. discriminate.
Qed.
Lemma strong_ws w : ws w -> strong w w.
Proof.
  induction 1 as [|c t Hc W IH|body t F W IH]; [apply strong_nil| |].
  - change (c :: t) with ([c] ++ t). apply strong_app; auto. destruct (white_ends c Hc) as (A & B & C & D). apply strong_char; [apply ws_code; auto|apply letter_num; exact A|].
    unfold begins. rewrite B. apply N.eqb_neq in C, D. rewrite C, D. reflexivity.
  - replace (c_hash :: body ++ c_nl :: t) with ((c_hash :: body ++ [c_nl]) ++ t) by (cbn; rewrite <- app_assoc; reflexivity).
    apply strong_app; auto. intros rest.
    change (c_hash :: ren Comment TNothing ((body ++ [c_nl]) ++ rest) = c_hash :: (body ++ [c_nl]) ++ ren Code TNothing rest). f_equal.
    rewrite <- !app_assoc. rewrite (masked_ren body Comment).
    + assert (modes Comment body = Comment) as -> by (apply (modes_comment body F)). reflexivity.
    + intros a b -> Nb. apply Forall_app in F as [F _].
      assert (modes Comment a = Comment) as -> by (apply (modes_comment a F)). discriminate.
Qed.
Lemma ws_ends w : ws w -> ends w.
Proof.
  destruct 1 as [|c t Hc W|body t F W]; cbn; auto.
  - destruct (white_ends c Hc) as (A & B & C & _). auto.
  - repeat split. discriminate.
Qed.
Lemma weak_last c : last_comment c -> ren Code TNothing c = c.
Proof.
  intros [->|(body & -> & F)]; [reflexivity|]. change (c_hash :: ren Comment TNothing body = c_hash :: body). f_equal.
  rewrite <- (app_nil_r body) at 1. rewrite masked_ren; [cbn; apply app_nil_r|].
  intros a b -> Nb. apply Forall_app in F as [F _]. assert (modes Comment a = Comment) as -> by (apply (modes_comment a F)). discriminate.
Qed.

(** ** Items *)
Definition nm (glob : bool) (n : str) : str := (if glob then [c_at] else []) ++ n.
Lemma lods_words n : Forall letter_or_digit n -> forallb word_char n = true.
Proof. intros F. apply forallb_forall. intros z Hz. apply wc_iff. rewrite Forall_forall in F. auto. Qed.
Lemma var_token glob n : var_name glob n -> exists K, (K = TMark \/ exists m, K = TName m) /\
  forall rest, ren Code TNothing (nm glob n ++ rest) = (if glob then nm true n else []) ++ ren Code K rest /\ nm glob (if glob then n else r n) = (if glob then nm true n else []) ++ pre K.
Proof.
  intros (c & t & -> & L & F). pose proof (lods_words t F) as W. destruct glob.
  - exists TMark. split; [auto|]. intros rest. split; [|rewrite app_nil_r; reflexivity]. cbn [nm app]. rewrite ren_other by reflexivity.
    change (step Code c_at) with Code. change (begins c_at) with TMark. f_equal. apply (ren_run TMark (c :: t)); [discriminate|].
    apply forallb_forall. intros z Hz. cbn [goes_on]. assert (word_char z = true) as ->; [|reflexivity]. apply wc_iff. destruct Hz as [<-|Hz]; [exact L|].
    rewrite Forall_forall in F. auto.
  - exists (TName (c :: t)). split; [right; eauto|]. intros rest. split; [|reflexivity]. cbn [nm app]. apply (ren_wordy (c :: t) rest). split; [apply letter_iff; exact L|exact W].
Qed.
Lemma swap_var n : var_name false n -> var_name false (r n).
Proof.
  intros H. destruct (sw_cases x y Hx Hy n) as [E|[_ (c & t & E & L & F & _)]]; [rewrite E; exact H|]. rewrite E. exists c, t. split; [reflexivity|]. split; [exact L|].
  eapply Forall_impl; [|exact F]. intros z [A|[A|A]]; [left; left; auto|right; auto|left; right; auto].
Qed.
Lemma var_ok glob n : var_name glob n -> var_name glob (if glob then n else r n).
Proof. destruct glob; [auto|apply swap_var]. Qed.
Lemma ren_var glob n : var_name glob n -> weak (nm glob n) (nm glob (if glob then n else r n)).
Proof.
  intros V rest N. destruct (var_token glob n V) as (K & _ & H). destruct (H rest) as [-> ->]. rewrite (ren_end K rest N), app_assoc. reflexivity.
Qed.
Lemma ren_var_dot glob n : var_name glob n -> strong (nm glob n ++ [c_dot]) (nm glob (if glob then n else r n) ++ [c_dot]).
Proof.
  intros V rest. destruct (var_token glob n V) as (K & D & H). rewrite <- app_assoc. destruct (H ([c_dot] ++ rest)) as [-> ->]. cbn [app].
  rewrite ren_dot by (destruct D as [->|(m & ->)]; discriminate). fold (pre K). rewrite <- !app_assoc. reflexivity.
Qed.
Lemma ren_item_ok f : item_name f -> item_name (ren_item_f r f) /\ strong (f ++ [c_colon]) (ren_item_f r f ++ [c_colon]).
Proof.
  intros (c & t & Hf & Hc & Ht). pose proof (lods_words t Ht) as Wt.
  assert (Cc : strong [c_colon] [c_colon]) by (apply strong_char; reflexivity).
  assert (M : forall d u, (d =? c_at) || (d =? c_caret) = true -> forallb (goes_on TMark) u = true -> weak (d :: u) (d :: u)).
  { intros d u Md Wu rest N. cbn [app].
    assert (B : is_letter d = false /\ step Code d = Code /\ begins d = TMark).
    { apply Bool.orb_true_iff in Md as [Md|Md]; apply N.eqb_eq in Md; subst d; repeat split. }
    destruct B as (B1 & B2 & B3). rewrite ren_other, B2, B3 by exact B1. f_equal. rewrite ren_run by (auto; discriminate). rewrite ren_end by exact N. reflexivity. }
  assert (Gt : forallb (goes_on TMark) t = true).
  { apply forallb_forall. intros z Hz. cbn [goes_on]. rewrite forallb_forall in Wt. rewrite (Wt z Hz). reflexivity. }
  destruct Hf as [->| ->].
  - destruct Hc as [Hc|Hc].
    + assert (Wn : wordy (c :: t)) by (split; [apply letter_iff; exact Hc|exact Wt]). cbn [ren_item_f].
      rewrite (letter_marks c Hc). split.
      * destruct (swap_var (c :: t)) as (d & u & -> & L & F); [exists c, t; auto|]. exists d, u. auto.
      * apply weak_strong_app; auto; [|discriminate|repeat split; intros ?; discriminate]. apply (ren_var false (c :: t)). exists c, t. auto.
    + subst c. cbn [ren_item_f]. change ((c_caret =? c_at) || (c_caret =? c_caret)) with true. cbn iota. split; [exists c_caret, t; auto|].
      apply weak_strong_app; [apply M; auto|exact Cc|discriminate|repeat split; intros ?; discriminate].
  - cbn [ren_item_f]. change ((c_at =? c_at) || (c_at =? c_caret)) with true. cbn iota. split; [exists c, t; auto|].
    apply weak_strong_app; [|exact Cc|discriminate|repeat split; intros ?; discriminate]. apply M; [reflexivity|]. cbn [forallb]. rewrite Gt, Bool.andb_true_r. cbn [goes_on].
    destruct Hc as [Hc|Hc]; [assert (word_char c = true) as -> by (apply wc_iff; left; auto); reflexivity|subst c; apply Bool.orb_true_r].
Qed.
Lemma fa_dot a : dot_sub a -> dot_sub (fa r a).
Proof. destruct a; cbn; auto. Qed.
Lemma strong_around o c w t u : strong [o] [o] -> strong [c] [c] -> ends [c] ->
  ws w -> weak t u -> strong (o :: w ++ t ++ [c]) (o :: w ++ u ++ [c]).
Proof.
  intros S1 S2 Ec W H. change (strong ([o] ++ w ++ t ++ [c]) ([o] ++ w ++ u ++ [c])).
  apply strong_app; [exact S1|]. apply strong_app; [apply strong_ws; auto|]. apply weak_strong_app; auto. discriminate.
Qed.
Ltac punct := first [apply strong_char; reflexivity | repeat split; intros ?; discriminate | reflexivity].

(** Every text of the grammar with the names exchanged is the text of the items with the names exchanged. *)
Theorem ren_all :
  (forall a t, r_atom a t -> exists u, r_atom (fa r a) u /\ weak t u) /\
  (forall e t, r_expr e t -> exists u, r_expr (fe r e) u /\ weak t u) /\
  (forall l t, r_chain l t -> exists u, r_chain (map (fun p => (fst p, fa r (snd p))) l) u /\ weak t u /\ ends t) /\
  (forall es t, r_elems es t -> exists u, r_elems (map (fe r) es) u /\ weak t u) /\
  (forall its t, r_items its t -> exists u, r_items (fi r its) u /\ weak t u).
Proof.
  apply (r_mut U (fun a t => exists u, r_atom (fa r a) u /\ weak t u) (fun e t => exists u, r_expr (fe r e) u /\ weak t u)
    (fun l t => exists u, r_chain (map (fun p => (fst p, fa r (snd p))) l) u /\ weak t u /\ ends t)
    (fun es t => exists u, r_elems (map (fe r) es) u /\ weak t u) (fun its t => exists u, r_items (fi r its) u /\ weak t u)).
  - intros w H. exists w. split; [constructor; auto|]. destruct H as (c & q & -> & H & Nu & F). intros rest N. cbn [app].
    assert (Lc : is_letter c = false).
    { unfold is_letter. apply N.eqb_neq in Nu. rewrite Nu, Bool.orb_false_r. unfold num_char in H. rewrite Nu in H. rewrite Bool.orb_false_r in H.
      destruct (is_digit c) eqn:Dg; [apply Bool.not_true_is_false; intros Al; apply alpha_not_digit in Al; congruence|]. cbn [orb] in H. apply Bool.orb_true_iff in H as [H|H]; apply N.eqb_eq in H; subst c; reflexivity. }
    assert (B : begins c = TNumber) by (unfold begins; rewrite H; reflexivity).
    rewrite ren_other, B, (begins_code c) by (auto; congruence). f_equal. rewrite ren_run; [|discriminate|].
    + rewrite ren_end by exact N. reflexivity.
    + apply forallb_forall. intros z Hz. cbn [goes_on]. rewrite Forall_forall in F. rewrite (F z Hz). apply Bool.orb_true_r.
  - intros cs F. eexists. split; [constructor; exact F|]. apply strong_weak, strong_string. exact F.
  - intros glob n V. eexists. split; [constructor; apply var_ok; exact V|apply ren_var; exact V].
  - intros glob n sub t V D R (u & Ru & W). eexists. split; [constructor; [apply var_ok; exact V|apply fa_dot; auto|exact Ru]|].
    assert (X : weak ((nm glob n ++ [c_dot]) ++ t) ((nm glob (if glob then n else r n) ++ [c_dot]) ++ u)).
    { apply strong_weak_app; [apply ren_var_dot; exact V|exact W]. }
    unfold nm in X. rewrite <- !app_assoc in X. exact X.
  - intros op a t R (u & Ru & W). eexists. split; [constructor; exact Ru|]. change (weak ([unop_text op] ++ t) ([unop_text op] ++ u)).
    apply strong_weak_app; auto. apply strong_char; destruct op; reflexivity.
  - intros es w t W R (u & Ru & K). eexists. split; [constructor; [exact W|exact Ru]|]. apply strong_weak, strong_around; auto; punct.
  - intros es w t W R (u & Ru & K). eexists. split; [constructor; [exact W|exact Ru]|]. apply strong_weak, strong_around; auto; punct.
  - intros its w t W R (u & Ru & K). eexists. split; [constructor; [exact W|exact Ru]|]. apply strong_weak, strong_around; auto; punct.
  - intros e w t w' W R (u & Ru & K) W'. eexists. split; [constructor; [exact W|exact Ru|exact W']|].
    rewrite (app_assoc t), (app_assoc u). apply strong_weak, strong_around; auto; try punct.
    apply weak_app; [exact K|apply strong_weak, strong_ws; auto|apply ws_ends; auto].
  - intros e e2 w t w' t2 w2 W R (u & Ru & K) W' N R2 (u2 & Ru2 & K2) W2. eexists. split; [constructor; [exact W|exact Ru|exact W'|exact N|exact Ru2|exact W2]|].
    replace (c_lt :: w ++ t ++ w' ++ t2 ++ w2 ++ [c_gt]) with (c_lt :: w ++ (t ++ w' ++ t2 ++ w2) ++ [c_gt]) by (rewrite <- !app_assoc; reflexivity).
    replace (c_lt :: w ++ u ++ w' ++ u2 ++ w2 ++ [c_gt]) with (c_lt :: w ++ (u ++ w' ++ u2 ++ w2) ++ [c_gt]) by (rewrite <- !app_assoc; reflexivity).
    apply strong_weak, strong_around; auto; try punct.
    apply weak_app; [exact K| |destruct w'; [congruence|exact (ws_ends _ W')]]. apply strong_weak_app; [apply strong_ws; auto|].
    apply weak_app; [exact K2|apply strong_weak, strong_ws; auto|apply ws_ends; auto].
  - intros a l t t' R (u & Ru & K) R' (u' & Ru' & K' & N). eexists. split; [cbn [fe]; constructor; [exact Ru|exact Ru']|]. apply weak_app; auto.
  - exists []. split; [constructor|]. split; [apply strong_weak, strong_nil|exact I].
  - intros op a l t t' R (u & Ru & K) R' (u' & Ru' & K' & N). eexists. split; [cbn [map fst snd]; constructor; [exact Ru|exact Ru']|].
    split; [|destruct op; repeat split; intros ?; discriminate]. change (weak ([op_text op] ++ t ++ t') ([op_text op] ++ u ++ u')).
    apply strong_weak_app; [apply strong_char; destruct op; reflexivity|]. apply weak_app; auto.
  - exists []. split; [constructor|apply strong_weak, strong_nil].
  - intros e es t w t' R (u & Ru & K) W D R' (u' & Ru' & K'). eexists. split.
    { cbn [map]. constructor; [exact Ru|exact W| |exact Ru']. destruct D as [->|D]; auto. }
    destruct w as [|c w].
    + destruct D as [->|D]; [|congruence]. inversion R'; subst. inversion Ru'; subst. apply weak_app; [exact K|exact K'|exact I].
    + apply weak_app; [exact K| |exact (ws_ends _ W)]. apply strong_weak_app; [apply strong_ws; auto|exact K'].
  - exists []. split; [constructor|apply strong_weak, strong_nil].
  - intros f e its w t w' t' Hf W R (u & Ru & K) W' D R' (u' & Ru' & K'). destruct (ren_item_ok f Hf) as [Hf' Kf]. eexists. split.
    { cbn [fi map fst snd]. constructor; [exact Hf'|exact W|exact Ru|exact W'| |exact Ru']. destruct D as [->|D]; auto. }
    replace (f ++ c_colon :: w ++ t ++ w' ++ t') with ((f ++ [c_colon]) ++ w ++ t ++ w' ++ t') by (rewrite <- !app_assoc; reflexivity).
    replace (ren_item_f r f ++ c_colon :: w ++ u ++ w' ++ u') with ((ren_item_f r f ++ [c_colon]) ++ w ++ u ++ w' ++ u') by (rewrite <- !app_assoc; reflexivity).
    apply strong_weak_app; [exact Kf|]. apply strong_weak_app; [apply strong_ws; auto|].
    destruct w' as [|c w'].
    + destruct D as [->|D]; [|congruence]. inversion R'; subst. inversion Ru'; subst. apply weak_app; [exact K|exact K'|exact I].
    + apply weak_app; [exact K| |exact (ws_ends _ W')]. apply strong_weak_app; [apply strong_ws; auto|exact K'].
Qed.
Lemma last_ends c : last_comment c -> ends c.
Proof. intros [->|(body & -> & _)]; [exact I|repeat split; intros ?; discriminate]. Qed.
Theorem fields_doc its t : r_doc its t -> r_doc (fi r its) (swap_fields x y t).
Proof.
  intros (w & t0 & c & -> & W & R & L). destruct (proj2 (proj2 (proj2 (proj2 ren_all))) _ _ R) as (u & Ru & K).
  exists w, u, c. split; [|auto]. unfold swap_fields. rewrite (strong_ws w W), K, weak_last; auto. apply last_ends. exact L.
Qed.
Theorem fields_list es t : r_list es t -> r_list (map (fe r) es) (swap_fields x y t).
Proof.
  intros (w & t0 & c & -> & W & R & L). destruct (proj1 (proj2 (proj2 (proj2 ren_all))) _ _ R) as (u & Ru & K).
  exists w, u, c. split; [|auto]. unfold swap_fields. rewrite (strong_ws w W), K, weak_last; auto. apply last_ends. exact L.
Qed.
End A.
