(** * Alpha: exchanging the names of two globals: texts, items and evaluation. *)
From Verif Require Export AlphaSpec Lex EvalProofs.
From Coq Require String.
Import String.StringSyntax.
Open Scope N_scope.

Section A.
Context `{U : Unicode}.
Lemma word_iff c : word_char c = true <-> letter_or_digit c.
Proof.
  unfold word_char, letter_or_digit, letter. rewrite !Bool.orb_true_iff, N.eqb_eq. tauto.
Qed.
Lemma word_mode c : word_char c = true -> step Code c = Code.
Proof. intros H. apply word_iff, lod_quiet in H as ((_ & H1 & H2) & _). cbn. apply N.eqb_neq in H1. apply N.eqb_neq in H2. rewrite H1, H2. reflexivity. Qed.
Lemma word_at c : word_char c = true -> c =? c_at = false.
Proof. intros H. apply N.eqb_neq. intros ->. discriminate. Qed.

Variables x y : str.
Hypothesis Hx : global_name x.
Hypothesis Hy : global_name y.
Notation r := (swap x y).
Notation ren := (rename r).

Lemma swap_swap n : r (r n) = n.
Proof.
  clear Hx Hy. unfold swap. destruct (str_eqb_spec n x) as [->|Nx].
  - destruct (str_eqb_spec y x) as [->|]; auto. destruct (str_eqb_spec y y); congruence.
  - destruct (str_eqb_spec n y) as [->|Ny].
    + destruct (str_eqb_spec x x); congruence.
    + destruct (str_eqb_spec n x), (str_eqb_spec n y); congruence.
Qed.
Lemma swap_inj n m : r n = r m -> n = m.
Proof. intros E. rewrite <- (swap_swap n), E. apply swap_swap. Qed.
Lemma swap_cases n : r n = n \/ (global_name n /\ global_name (r n)).
Proof. unfold swap. destruct (str_eqb_spec n x) as [->|]; [auto|]. destruct (str_eqb_spec n y) as [->|]; auto. Qed.
Lemma global_words n : global_name n -> forallb word_char n = true.
Proof.
  intros (c & t & -> & L & F). apply forallb_forall. intros z Hz. apply word_iff. destruct Hz as [<-|Hz]; [left; auto|].
  rewrite Forall_forall in F. auto.
Qed.
Lemma swap_words n : forallb word_char n = true -> forallb word_char (r n) = true.
Proof. intros H. destruct (swap_cases n) as [->|[_ G]]; auto. apply global_words; auto. Qed.
Lemma swap_var n : var_name true n -> var_name true (r n).
Proof.
  intros H. destruct (swap_cases n) as [->|[_ (c & t & -> & L & F)]]; auto. exists c, t. split; [reflexivity|]. split; [left; auto|auto].
Qed.

(** ** Texts *)
Definition nolod (t : str) : Prop := match t with c :: _ => word_char c = false | [] => True end.
(** reading a name *)
Lemma ren_word u : forall n rest, forallb word_char u = true -> nolod rest ->
  ren Code (Some n) (u ++ rest) = r (n ++ u) ++ ren Code None rest.
Proof.
  induction u as [|c u IH]; intros n rest H N.
  - rewrite app_nil_r. destruct rest as [|c rest]; [symmetry; apply app_nil_r|]. cbn in N. cbn [app rename]. rewrite N. reflexivity.
  - cbn [forallb] in H. apply andb_prop in H as [H1 H2]. cbn [app rename]. rewrite H1, IH by auto. rewrite <- app_assoc. reflexivity.
Qed.
Lemma ren_at n rest : forallb word_char n = true -> nolod rest ->
  ren Code None (c_at :: n ++ rest) = c_at :: r n ++ ren Code None rest.
Proof. intros H N. cbn [rename]. change (step Code c_at) with Code. change (c_at =? c_at) with true. cbn iota. rewrite ren_word by auto. reflexivity. Qed.

Lemma cut_word t : exists u rest, t = u ++ rest /\ forallb word_char u = true /\ nolod rest.
Proof.
  induction t as [|c t (u & rest & -> & H & N)]; [exists [], []; repeat split|]. destruct (word_char c) eqn:W.
  - exists (c :: u), rest. cbn. rewrite W, H. auto.
  - exists [], (c :: u ++ rest). repeat split. exact W.
Qed.
(** Twice is nothing. *)
Lemma ren_ren : forall k t m, (length t <= k)%nat -> ren m None (ren m None t) = t /\ (nolod t -> nolod (ren m None t)).
Proof.
  induction k as [|k IH]; intros t m L; [destruct t; [split; auto|cbn in L; lia]|]. destruct t as [|c t]; [split; auto|]. cbn [length] in L.
  assert (G : m <> Code \/ c <> c_at -> ren m None (c :: t) = c :: ren (step m c) None t).
  { intros [H|H]; cbn [rename]; destruct m; auto; try congruence. apply N.eqb_neq in H. rewrite H. reflexivity. }
  assert (D : (m <> Code \/ c <> c_at) \/ (m = Code /\ c = c_at)).
  { destruct (N.eq_dec c c_at) as [->|]; [|auto]. destruct m; auto; left; left; discriminate. }
  destruct D as [D|[-> ->]].
  - rewrite (G D). split; [|auto].
    assert (G' : ren m None (c :: ren (step m c) None t) = c :: ren (step m c) None (ren (step m c) None t)).
    { destruct D as [H|H]; cbn [rename]; destruct m; auto; try congruence. apply N.eqb_neq in H. rewrite H. reflexivity. }
    rewrite G'. f_equal. apply IH. lia.
  - split; [|reflexivity]. destruct (cut_word t) as (u & rest & -> & H & N). rewrite ren_at by auto.
    assert (L' : (length rest <= k)%nat) by (rewrite app_length in L; lia). destruct (IH rest Code L') as [E N'].
    rewrite ren_at by (auto using swap_words). rewrite swap_swap, E. reflexivity.
Qed.
Lemma swap_globals_twice t : swap_globals x y (swap_globals x y t) = t.
Proof. apply (ren_ren (length t)). lia. Qed.

(** pieces *)
Definition strong (t u : str) : Prop := forall rest, ren Code None (t ++ rest) = u ++ ren Code None rest.
Definition weak (t u : str) : Prop := forall rest, nolod rest -> ren Code None (t ++ rest) = u ++ ren Code None rest.
Lemma strong_weak t u : strong t u -> weak t u.
Proof. intros H rest _. apply H. Qed.
Lemma strong_app t u t' u' : strong t u -> strong t' u' -> strong (t ++ t') (u ++ u').
Proof. intros H K rest. rewrite <- !app_assoc, H, K. reflexivity. Qed.
Lemma strong_weak_app t u t' u' : strong t u -> weak t' u' -> weak (t ++ t') (u ++ u').
Proof. intros H K rest N. rewrite <- !app_assoc, H, K by auto. reflexivity. Qed.
Lemma weak_strong_app t u t' u' : weak t u -> strong t' u' -> t' <> [] -> nolod t' -> strong (t ++ t') (u ++ u').
Proof.
  intros H K Ne N rest. rewrite <- !app_assoc, H; [rewrite K; reflexivity|]. destruct t'; [congruence|exact N].
Qed.
Lemma weak_app t u t' u' : weak t u -> weak t' u' -> nolod t' -> weak (t ++ t') (u ++ u').
Proof.
  intros H K N rest Nr. rewrite <- !app_assoc, H; [rewrite K by auto; reflexivity|]. destruct t'; [exact Nr|exact N].
Qed.
Lemma strong_nil : strong [] [].
Proof. intros rest. reflexivity. Qed.
Lemma strong_quiet s : Forall (fun c => quiet c /\ c <> c_at) s -> strong s s.
Proof.
  induction 1 as [|c s [((_ & H1 & H2) & _) H3] F IH]; [apply strong_nil|]. intros rest. cbn [app rename step].
  apply N.eqb_neq in H1. apply N.eqb_neq in H2. apply N.eqb_neq in H3. rewrite H1, H2, H3, IH. reflexivity.
Qed.
Lemma strong_char c : step Code c = Code -> c <> c_at -> strong [c] [c].
Proof. intros S N rest. cbn [app rename]. apply N.eqb_neq in N. rewrite N, S. reflexivity. Qed.
Lemma masked_ren : forall t m, (forall a b, t = a ++ b -> b <> [] -> modes m a <> Code) ->
  forall rest, ren m None (t ++ rest) = t ++ ren (modes m t) None rest.
Proof.
  induction t as [|c t IH]; intros m H rest; [reflexivity|].
  assert (Nm : m <> Code) by (apply (H [] (c :: t)); [auto|discriminate]).
  cbn [app rename]. change (modes m (c :: t)) with (modes (step m c) t). rewrite <- IH.
  - destruct m; auto. congruence.
  - intros a b E Nb. apply (H (c :: a) b); [rewrite E|]; auto.
Qed.
Lemma strong_string cs : Forall schar_ok cs -> strong (c_quote :: flat_map schar_text cs ++ [c_quote]) (c_quote :: flat_map schar_text cs ++ [c_quote]).
Proof.
  intros F rest. change (c_quote :: ren Quoted None ((flat_map schar_text cs ++ [c_quote]) ++ rest) = c_quote :: (flat_map schar_text cs ++ [c_quote]) ++ ren Code None rest).
  f_equal. rewrite masked_ren.
  - rewrite modes_app, modes_schars by auto. reflexivity.
  - intros a b E Nb. apply app_split in E as [(q & Ea & Eb)|(e & q & Ea & Eb)].
    + eapply schars_cut; eauto.
    + inversion Eb as [[Ee Er]]. symmetry in Er. apply app_eq_nil in Er as [_ Er]. congruence.
Qed.
Lemma strong_ws w : ws w -> strong w w.
Proof.
  induction 1 as [|c t Hc W IH|body t F W IH]; [apply strong_nil| |].
  - change (c :: t) with ([c] ++ t). apply strong_app; auto. apply strong_char; [apply ws_code; auto|intros ->; discriminate].
  - replace (c_hash :: body ++ c_nl :: t) with ((c_hash :: body ++ [c_nl]) ++ t) by (cbn; rewrite <- app_assoc; reflexivity).
    apply strong_app; auto. intros rest.
    change (c_hash :: ren Comment None ((body ++ [c_nl]) ++ rest) = c_hash :: (body ++ [c_nl]) ++ ren Code None rest). f_equal.
    rewrite <- !app_assoc. rewrite (masked_ren body Comment).
    + assert (modes Comment body = Comment) as -> by (apply (modes_comment body F)). reflexivity.
    + intros a b -> Nb. apply Forall_app in F as [F _].
      assert (modes Comment a = Comment) as -> by (apply (modes_comment a F)). discriminate.
Qed.
Lemma ws_nolod w : ws w -> nolod w.
Proof.
  destruct 1 as [|c t Hc W|body t F W]; cbn; auto. apply Bool.not_true_is_false. intros H. apply word_iff, lod_quiet in H as ((H & _) & _). congruence.
Qed.
Lemma weak_last c : last_comment c -> ren Code None c = c.
Proof.
  intros [->|(body & -> & F)]; [reflexivity|]. change (c_hash :: ren Comment None body = c_hash :: body). f_equal.
  rewrite <- (app_nil_r body) at 1. rewrite masked_ren; [cbn; apply app_nil_r|].
  intros a b -> Nb. apply Forall_app in F as [F _]. assert (modes Comment a = Comment) as -> by (apply (modes_comment a F)). discriminate.
Qed.

(** ** Items *)
Definition ren_item (f : str) : str := match f with c :: n => if c =? c_at then c_at :: r n else f | [] => [] end.
Fixpoint ra (a : atom) : atom :=
  match a with
  | ANum _ | AStr _ => a
  | AVar g n => AVar g (if g then r n else n)
  | ADot g n sub => ADot g (if g then r n else n) (ra sub)
  | AUn op a => AUn op (ra a)
  | AArr es => AArr (map re es)
  | ATup es => ATup (map re es)
  | AObj its => AObj (map (fun p => (ren_item (fst p), re (snd p))) its)
  | AInc e p => AInc (re e) (match p with Some e2 => Some (re e2) | None => None end)
  end
with re (e : expr) : expr := match e with Ex a l => Ex (ra a) (map (fun p => (fst p, ra (snd p))) l) end.
Definition ri (its : list (str * expr)) : list (str * expr) := map (fun p => (ren_item (fst p), re (snd p))) its.

Lemma name_lods glob n : var_name glob n -> forallb word_char n = true.
Proof.
  intros (c & t & -> & L & F). apply forallb_forall. intros z [<-|Hz]; apply word_iff.
  - destruct glob; [exact L|left; exact L].
  - rewrite Forall_forall in F. auto.
Qed.
Lemma words_plain n : forallb word_char n = true -> Forall (fun c => quiet c /\ c <> c_at) n.
Proof.
  intros H. rewrite forallb_forall in H. apply Forall_forall. intros z Hz. apply H in Hz. split; [apply lod_quiet, word_iff; auto|].
  intros ->. discriminate.
Qed.
Lemma ren_name glob n : var_name glob n -> var_name glob (if glob then r n else n) /\
  weak ((if glob then [c_at] else []) ++ n) ((if glob then [c_at] else []) ++ (if glob then r n else n)).
Proof.
  intros V. pose proof (name_lods _ _ V) as W. destruct glob.
  - split; [apply swap_var; auto|]. intros rest N. cbn [app]. apply ren_at; auto.
  - split; [exact V|]. apply strong_weak, strong_quiet, words_plain. exact W.
Qed.
Lemma ren_item_ok f : item_name f -> item_name (ren_item f) /\ strong (f ++ [c_colon]) (ren_item f ++ [c_colon]).
Proof.
  intros (c & t & Hf & Hc & Ht).
  assert (Wt : forallb word_char t = true) by (apply forallb_forall; intros z Hz; apply word_iff; rewrite Forall_forall in Ht; auto).
  assert (Cc : strong [c_colon] [c_colon]) by (apply strong_char; [reflexivity|discriminate]).
  assert (Pc : quiet c /\ c <> c_at).
  { destruct Hc as [Hc| ->]; [|split; [apply quiet_iff; reflexivity|discriminate]].
    assert (W : letter_or_digit c) by (left; auto). split; [apply lod_quiet; auto|]. intros ->. apply word_iff in W. discriminate. }
  assert (Pct : Forall (fun c => quiet c /\ c <> c_at) (c :: t)) by (constructor; [auto|apply words_plain; auto]).
  destruct Hf as [->| ->].
  - destruct Pc as [_ Nc]. cbn [ren_item]. apply N.eqb_neq in Nc. rewrite Nc. split; [exists c, t; auto|].
    apply strong_app; auto. apply strong_quiet; auto.
  - cbn [ren_item]. change (c_at =? c_at) with true. cbn iota. destruct Hc as [Hc|Hc].
    + assert (Wct : forallb word_char (c :: t) = true) by (cbn; rewrite Wt; assert (word_char c = true) as -> by (apply word_iff; left; auto); reflexivity).
      split.
      * destruct (swap_cases (c :: t)) as [->|[_ (c' & t' & -> & L & F)]]; [exists c, t|exists c', t']; auto.
      * change (strong ((c_at :: c :: t) ++ [c_colon]) ((c_at :: r (c :: t)) ++ [c_colon])). apply weak_strong_app; auto; [|discriminate|reflexivity].
        intros rest N. apply (ren_at (c :: t)); auto.
    + assert (r (c :: t) = c :: t) as ->.
      { destruct (swap_cases (c :: t)) as [E|[(c' & t' & E & L & _) _]]; auto. injection E as -> ->. subst c'. exfalso.
        assert (W : letter_or_digit c_caret) by (left; auto). apply word_iff in W. discriminate. }
      split; [exists c, t; auto|]. apply strong_app; auto. subst c. intros rest. cbn [app rename]. change (step Code c_at) with Code.
      change (c_at =? c_at) with true. change (word_char c_caret) with false. cbn iota. change (step Code c_caret) with Code. change (c_caret =? c_at) with false.
      assert (r [] = []) as ->.
      { destruct (swap_cases []) as [E|[(c' & t' & E & _) _]]; [auto|discriminate]. }
      cbn [app]. do 2 f_equal. apply (strong_quiet t). apply words_plain; auto.
Qed.
Lemma ra_dot a : dot_sub a -> dot_sub (ra a).
Proof. destruct a; cbn; auto. Qed.
Lemma strong_around o c w t u : step Code o = Code -> step Code c = Code -> o <> c_at -> c <> c_at -> word_char c = false ->
  ws w -> weak t u -> strong (o :: w ++ t ++ [c]) (o :: w ++ u ++ [c]).
Proof.
  intros S1 S2 N1 N2 Wc W H. change (strong ([o] ++ w ++ t ++ [c]) ([o] ++ w ++ u ++ [c])).
  apply strong_app; [apply strong_char; auto|]. apply strong_app; [apply strong_ws; auto|].
  apply weak_strong_app; auto; [apply strong_char; auto|discriminate].
Qed.

(** Every text of the grammar with the names exchanged is the text of the items with the names exchanged. *)
Theorem ren_all :
  (forall a t, r_atom a t -> exists u, r_atom (ra a) u /\ weak t u) /\
  (forall e t, r_expr e t -> exists u, r_expr (re e) u /\ weak t u) /\
  (forall l t, r_chain l t -> exists u, r_chain (map (fun p => (fst p, ra (snd p))) l) u /\ weak t u /\ nolod t) /\
  (forall es t, r_elems es t -> exists u, r_elems (map re es) u /\ weak t u) /\
  (forall its t, r_items its t -> exists u, r_items (ri its) u /\ weak t u).
Proof.
  apply (r_mut U (fun a t => exists u, r_atom (ra a) u /\ weak t u) (fun e t => exists u, r_expr (re e) u /\ weak t u)
    (fun l t => exists u, r_chain (map (fun p => (fst p, ra (snd p))) l) u /\ weak t u /\ nolod t)
    (fun es t => exists u, r_elems (map re es) u /\ weak t u) (fun its t => exists u, r_items (ri its) u /\ weak t u)).
  - intros w H. exists w. split; [constructor; auto|]. apply strong_weak, strong_quiet. destruct H as (c & q & -> & H & _ & F).
    assert (K : Forall (fun d => num_char d = true) (c :: q)) by (constructor; auto).
    eapply Forall_impl; [|exact K]. intros z Hz. split; [apply num_quiet; auto|]. intros ->. discriminate.
  - intros cs F. eexists. split; [constructor; exact F|]. apply strong_weak, strong_string. exact F.
  - intros glob n V. destruct (ren_name glob n V) as [V' W]. eexists. split; [constructor; exact V'|exact W].
  - intros glob n sub t V D R (u & Ru & W). destruct (ren_name glob n V) as [V' W']. eexists. split; [constructor; [exact V'|apply ra_dot; auto|exact Ru]|].
    assert (X : weak (((if glob then [c_at] else []) ++ n) ++ [c_dot] ++ t) (((if glob then [c_at] else []) ++ (if glob then r n else n)) ++ [c_dot] ++ u)).
    { apply weak_app; [exact W'| |reflexivity]. apply strong_weak_app; [apply strong_char; [reflexivity|discriminate]|exact W]. }
    rewrite <- !app_assoc in X. exact X.
  - intros op a t R (u & Ru & W). eexists. split; [constructor; exact Ru|]. change (weak ([unop_text op] ++ t) ([unop_text op] ++ u)).
    apply strong_weak_app; auto. apply strong_char; destruct op; (reflexivity || discriminate).
  - intros es w t W R (u & Ru & K). eexists. split; [constructor; [exact W|exact Ru]|]. apply strong_weak, strong_around; auto; try discriminate.
  - intros es w t W R (u & Ru & K). eexists. split; [constructor; [exact W|exact Ru]|]. apply strong_weak, strong_around; auto; try discriminate.
  - intros its w t W R (u & Ru & K). eexists. split; [constructor; [exact W|exact Ru]|]. apply strong_weak, strong_around; auto; try discriminate.
  - intros e w t w' W R (u & Ru & K) W'. eexists. split; [constructor; [exact W|exact Ru|exact W']|].
    rewrite (app_assoc t), (app_assoc u). apply strong_weak, strong_around; auto; try discriminate.
    apply weak_app; [exact K|apply strong_weak, strong_ws; auto|apply ws_nolod; auto].
  - intros e e2 w t w' t2 w2 W R (u & Ru & K) W' N R2 (u2 & Ru2 & K2) W2. eexists. split; [constructor; [exact W|exact Ru|exact W'|exact N|exact Ru2|exact W2]|].
    replace (c_lt :: w ++ t ++ w' ++ t2 ++ w2 ++ [c_gt]) with (c_lt :: w ++ (t ++ w' ++ t2 ++ w2) ++ [c_gt]) by (rewrite <- !app_assoc; reflexivity).
    replace (c_lt :: w ++ u ++ w' ++ u2 ++ w2 ++ [c_gt]) with (c_lt :: w ++ (u ++ w' ++ u2 ++ w2) ++ [c_gt]) by (rewrite <- !app_assoc; reflexivity).
    apply strong_weak, strong_around; auto; try discriminate.
    apply weak_app; [exact K| |destruct w'; [congruence|exact (ws_nolod _ W')]]. apply strong_weak_app; [apply strong_ws; auto|].
    apply weak_app; [exact K2|apply strong_weak, strong_ws; auto|apply ws_nolod; auto].
  - intros a l t t' R (u & Ru & K) R' (u' & Ru' & K' & N). eexists. split; [cbn [re]; constructor; [exact Ru|exact Ru']|]. apply weak_app; auto.
  - exists []. split; [constructor|]. split; [apply strong_weak, strong_nil|exact I].
  - intros op a l t t' R (u & Ru & K) R' (u' & Ru' & K' & N). eexists. split; [cbn [map fst snd]; constructor; [exact Ru|exact Ru']|].
    split; [|destruct op; reflexivity]. change (weak ([op_text op] ++ t ++ t') ([op_text op] ++ u ++ u')).
    apply strong_weak_app; [apply strong_char; destruct op; (reflexivity || discriminate)|]. apply weak_app; auto.
  - exists []. split; [constructor|apply strong_weak, strong_nil].
  - intros e es t w t' R (u & Ru & K) W D R' (u' & Ru' & K'). eexists. split.
    { cbn [map]. constructor; [exact Ru|exact W| |exact Ru']. destruct D as [->|D]; auto. }
    destruct w as [|c w].
    + destruct D as [->|D]; [|congruence]. inversion R'; subst. inversion Ru'; subst. apply weak_app; [exact K|exact K'|exact I].
    + apply weak_app; [exact K| |exact (ws_nolod _ W)]. apply strong_weak_app; [apply strong_ws; auto|exact K'].
  - exists []. split; [constructor|apply strong_weak, strong_nil].
  - intros f e its w t w' t' Hf W R (u & Ru & K) W' D R' (u' & Ru' & K'). destruct (ren_item_ok f Hf) as [Hf' Kf]. eexists. split.
    { cbn [ri map fst snd]. constructor; [exact Hf'|exact W|exact Ru|exact W'| |exact Ru']. destruct D as [->|D]; auto. }
    replace (f ++ c_colon :: w ++ t ++ w' ++ t') with ((f ++ [c_colon]) ++ w ++ t ++ w' ++ t') by (rewrite <- !app_assoc; reflexivity).
    replace (ren_item f ++ c_colon :: w ++ u ++ w' ++ u') with ((ren_item f ++ [c_colon]) ++ w ++ u ++ w' ++ u') by (rewrite <- !app_assoc; reflexivity).
    apply strong_weak_app; [exact Kf|]. apply strong_weak_app; [apply strong_ws; auto|].
    destruct w' as [|c w'].
    + destruct D as [->|D]; [|congruence]. inversion R'; subst. inversion Ru'; subst. apply weak_app; [exact K|exact K'|exact I].
    + apply weak_app; [exact K| |exact (ws_nolod _ W')]. apply strong_weak_app; [apply strong_ws; auto|exact K'].
Qed.
Theorem ren_doc its t : r_doc its t -> r_doc (ri its) (swap_globals x y t).
Proof.
  intros (w & t0 & c & -> & W & R & L). destruct (proj2 (proj2 (proj2 (proj2 ren_all))) _ _ R) as (u & Ru & K).
  exists w, u, c. split; [|auto]. unfold swap_globals. rewrite (strong_ws w W), K, weak_last; auto.
  destruct L as [->|(body & -> & _)]; [exact I|reflexivity].
Qed.

(** ** Evaluation *)
Definition rgl (gl : list (str * value)) : list (str * value) := map (fun p => (ren_item (fst p), snd p)) gl.
Definition rst (s : est) : est := (rgl (fst s), snd s).
Lemma ren_item_twice f : ren_item (ren_item f) = f.
Proof.
  destruct f as [|c f]; [reflexivity|]. cbn [ren_item]. destruct (N.eqb_spec c c_at) as [->|N]; cbn [ren_item].
  - change (c_at =? c_at) with true. cbn iota. rewrite swap_swap. reflexivity.
  - apply N.eqb_neq in N. rewrite N. reflexivity.
Qed.
Lemma rst_twice s : rst (rst s) = s.
Proof.
  destruct s as [gl sh]. unfold rst, rgl. cbn [fst snd]. rewrite map_map. f_equal. rewrite <- (map_id gl) at 2. apply map_ext.
  intros [f v]. cbn [fst snd]. rewrite ren_item_twice. reflexivity.
Qed.
Lemma assoc_rgl n gl : assoc (c_at :: r n) (rgl gl) = assoc (c_at :: n) gl.
Proof.
  change (c_at :: r n) with (ren_item (c_at :: n)). generalize (c_at :: n). intros f. induction gl as [|[k v] gl IH]; [reflexivity|]. cbn [rgl map assoc fst snd].
  destruct (str_eqb_spec k f) as [->|N].
  - destruct (str_eqb_spec (ren_item f) (ren_item f)); congruence.
  - destruct (str_eqb_spec (ren_item k) (ren_item f)) as [E|]; [|exact IH]. exfalso. apply N. rewrite <- (ren_item_twice k), E. apply ren_item_twice.
Qed.
Definition rres {A} (o : option (A * est)) : option (A * est) := match o with Some (a, s) => Some (a, rst s) | None => None end.
(** [m'] does with the exchanged names what [m] does. *)
Definition alike {A} (m m' : ES A) : Prop := forall s, m' (rst s) = rres (m s).
Lemma al_bind {A B} (m m' : ES A) (f f' : A -> ES B) : alike m m' -> (forall a, alike (f a) (f' a)) -> alike (ebind m f) (ebind m' f').
Proof. intros H K s. unfold ebind. rewrite H. destruct (m s) as [[a q]|]; cbn [rres]; [apply K|reflexivity]. Qed.
Lemma al_ret {A} (a : A) : alike (eret a) (eret a).
Proof. intros s. reflexivity. Qed.
Lemma al_fail {A} : alike (@efail A) efail.
Proof. intros s. reflexivity. Qed.
Lemma al_lift {A} (o : option A) : alike (elift o) (elift o).
Proof. destruct o; [apply al_ret|apply al_fail]. Qed.
Lemma al_fresh : alike fresh fresh.
Proof. intros [gl sh]. reflexivity. Qed.
Lemma al_sentinel k : alike (esentinel k) (esentinel k).
Proof. intros [gl sh]. unfold esentinel, rst. cbn [fst snd]. destruct (g_sent _ _); reflexivity. Qed.
Lemma al_keyword o ks : alike (ev_keyword o ks) (ev_keyword o ks).
Proof.
  induction ks as [|k ks IH]; cbn [ev_keyword]; [apply al_ret|]. apply al_bind; [apply al_sentinel|]. intros s. destruct (_ =? _); [apply al_ret|exact IH].
Qed.
Lemma al_op op v w : alike (ev_op op v w) (ev_op op v w).
Proof.
  unfold ev_op. destruct op, v, w; try apply al_lift. destruct (most_specific _ _) as [[t ?]|]; [|apply al_fail].
  apply al_bind; [apply al_fresh|]. intros i. apply al_ret.
Qed.
Lemma al_add acc cur : alike (add_up acc cur) (add_up acc cur).
Proof. destruct acc as [[s op]|]; [apply al_op|apply al_ret]. Qed.
Lemma al_chain l : forall acc cur, alike (ev_chain acc cur l) (ev_chain acc cur l).
Proof.
  induction l as [|[op w] l IH]; intros acc cur; cbn [ev_chain]; [apply al_add|]. destruct (is_priority op).
  - apply al_bind; [apply al_lift|]. intros p. apply IH.
  - apply al_bind; [apply al_add|]. intros s. apply IH.
Qed.
Lemma al_emap {A B C} (f : A -> ES C) (f' : B -> ES C) (h : A -> B) l : Forall (fun a => alike (f a) (f' (h a))) l -> alike (emap f l) (emap f' (map h l)).
Proof.
  induction 1 as [|a l H F IH]; [apply al_ret|]. cbn [emap map]. apply al_bind; [exact H|]. intros v. apply al_bind; [exact IH|]. intros vs. apply al_ret.
Qed.
Lemma al_name fields glob n : alike (ev_name fields glob n) (ev_name fields glob (if glob then r n else n)).
Proof.
  unfold ev_name. destruct glob.
  - intros s. unfold ebind, eglobals. destruct s as [gl sh]. unfold rst at 1 2. cbn [fst snd]. rewrite assoc_rgl. apply (al_lift _ (gl, sh)).
  - destruct (assoc n constants); [apply al_ret|]. destruct (assoc n keywords); [|apply al_lift]. apply al_bind; [apply al_sentinel|]. intros o. apply al_ret.
Qed.
Lemma al_global {A} n (m m' : ES A) : alike m m' ->
  alike (do g <- eglobals;; match assoc (c_at :: n) g with Some _ => efail | None => m end)
        (do g <- eglobals;; match assoc (c_at :: r n) g with Some _ => efail | None => m' end).
Proof.
  intros H [gl sh]. unfold ebind, eglobals. cbn [fst]. change (fst (rst (gl, sh))) with (rgl gl). rewrite assoc_rgl.
  destruct (assoc (c_at :: n) gl); [reflexivity|apply H].
Qed.
Lemma kind_ren f : kind_of_item (ren_item f) = kind_of_item f.
Proof. destruct f as [|c f]; [reflexivity|]. cbn [ren_item]. destruct (N.eqb_spec c c_at) as [->|]; reflexivity. Qed.
Lemma al_items (ev ev' : list pair_t -> expr -> ES value) its :
  Forall (fun p => forall fields, alike (ev fields (snd p)) (ev' fields (re (snd p)))) its ->
  forall fields par, alike (ev_items ev its fields par) (ev_items ev' (ri its) fields par).
Proof.
  induction 1 as [|[f e] its H F IH]; intros fields par; [apply al_ret|]. cbn [ri map fst snd] in *. rewrite !ev_items_cons, kind_ren.
  destruct (kind_of_item f) eqn:K.
  - assert (exists n, f = c_at :: n) as (n & ->).
    { unfold kind_of_item in K. destruct f as [|c f]; [destruct (mem_str _ _); discriminate|].
      destruct (N.eq_dec c 64) as [->|Nc]; [exists f; reflexivity|]. exfalso.
      destruct (N.eq_dec c 94) as [->|Nc']; [destruct f; discriminate|].
      assert (Q : match c with 64 => KGlobal | 94 => match f with [] => KParent | _ => KIllegal end | _ => if mem_str (c :: f) reserved_words then KIllegal else KField end = KGlobal).
      { rewrite <- K. destruct c as [|p]; [reflexivity|]. repeat (destruct p as [p|p|]; try reflexivity). }
      destruct c as [|p]; [destruct (mem_str _ _); discriminate|].
      repeat (destruct p as [p|p|]; try (destruct (mem_str _ _); discriminate); try congruence). }
    cbn [ren_item]. change (c_at =? c_at) with true. cbn iota. apply al_global.
    apply al_bind; [apply H|]. intros v. apply al_bind; [|intros; apply IH].
    intros [gl' sh']. unfold edefine, rst, rres. cbn [fst snd]. cbn [rgl map fst snd ren_item]. reflexivity.
  - destruct par; [apply al_fail|]. apply al_bind; [apply H|]. intros v. destruct v; try apply al_fail. apply IH.
  - assert (E : ren_item f = f).
    { destruct f as [|c f]; [reflexivity|]. cbn [ren_item]. destruct (N.eqb_spec c c_at) as [->|]; [discriminate|reflexivity]. }
    rewrite E. destruct (mem_str _ _); [apply al_fail|]. apply al_bind; [apply H|]. intros v. apply IH.
  - apply al_fail.
Qed.

Section Ev.
Variable inc : inc_ty -> str -> ES value.
Variable lim : N -> bool.
Definition swapped_inc : inc_ty -> str -> ES value := fun k p s => rres (inc k p (rst s)).
Lemma al_inc k p : alike (inc k p) (swapped_inc k p).
Proof. intros s. unfold swapped_inc. rewrite rst_twice. reflexivity. Qed.
Lemma al_deep {A} d (m m' : ES A) : alike m m' -> alike (deep lim d m) (deep lim d m').
Proof. intros H. unfold deep. destruct (lim d); [exact H|apply al_fail]. Qed.
Theorem al_all : (forall a d fields, alike (ev_atom inc lim d fields a) (ev_atom swapped_inc lim d fields (ra a))) /\
  (forall e d fields, alike (ev_expr inc lim d fields e) (ev_expr swapped_inc lim d fields (re e))).
Proof.
  apply ast_ind.
  - intros w d fields. apply al_lift.
  - intros cs d fields. apply al_lift.
  - intros g n d fields. apply al_name.
  - intros g n sub IH d fields. cbn [ra]. rewrite !ev_dot. apply al_bind; [apply al_name|]. intros v. destruct v; try apply al_fail.
    + apply al_bind; [apply IH|]. intros i. apply al_lift.
    + apply al_bind; [apply IH|]. intros i. apply al_lift.
    + destruct sub as [| |[] |[] | | | | |]; cbn [ra]; try apply al_fail; apply (IH (d + 1)).
  - intros op a IH d fields. cbn [ra ev_atom]. apply al_bind; [apply IH|]. intros v. apply al_lift.
  - intros es F d fields. cbn [ra]. rewrite !ev_arr. apply al_deep, al_bind.
    + apply al_emap. eapply Forall_impl; [|exact F]. intros e H. apply H.
    + intros vs. destruct (lub _); [|apply al_fail]. apply al_bind; [apply al_fresh|]. intros i. apply al_ret.
  - intros es F d fields. cbn [ra]. rewrite !ev_tup. apply al_deep, al_bind.
    + apply al_emap. eapply Forall_impl; [|exact F]. intros e H. apply H.
    + intros vs. apply al_bind; [apply al_fresh|]. intros i. apply al_ret.
  - intros its F d fields. cbn [ra]. rewrite !ev_obj. apply al_deep, al_bind.
    + apply (al_items _ _ its). eapply Forall_impl; [|exact F]. intros p H. intros fs. apply H.
    + intros q. apply al_bind; [apply al_fresh|]. intros i. apply al_ret.
  - intros e p IH IHp d fields. cbn [ra]. rewrite !ev_inc. apply al_deep, al_bind; [apply IH|]. intros v. destruct v; try apply al_fail.
    + destruct p; [apply al_fail|apply al_inc].
    + apply al_bind; [apply al_keyword|]. intros k. destruct k as [k|]; [|apply al_fail]. destruct p as [e2|]; [|apply al_fail].
      apply al_bind; [apply (IHp e2 eq_refl)|]. intros v2. destruct v2; try apply al_fail. apply al_inc.
  - intros a l IH F d fields. cbn [re ev_expr]. apply al_bind; [apply IH|]. intros v. apply al_bind; [|intros; apply al_chain].
    apply (al_emap _ _ (fun p => (fst p, ra (snd p)))). eapply Forall_impl; [|exact F]. intros [op b] H. cbn [fst snd] in *.
    apply al_bind; [apply H|]. intros w. apply al_ret.
Qed.
Theorem al_doc its : alike (ev_doc inc lim its) (ev_doc swapped_inc lim (ri its)).
Proof.
  unfold ev_doc. apply al_bind; [apply al_items; apply Forall_forall; intros; apply al_all|]. intros q.
  apply al_bind; [apply al_fresh|]. intros i. apply al_ret.
Qed.
End Ev.
End A.
