(** * Prefix: texts of the grammar that are prefixes of other texts of the grammar. *)
From Verif Require Export Unique Roundtrip.
From Coq Require String.
Import String.StringSyntax.
Open Scope N_scope.

Section Prefix.
Context `{U : Unicode}.

(** White space can be taken away from the front. *)
Lemma ws_strip : forall a, ws a -> forall w y x, ws w -> a ++ y = w ++ x -> solid x ->
  exists w2, ws w2 /\ y = w2 ++ x.
Proof.
  induction 1 as [|c t Hc W IH|body t F W IH]; intros w y x Ww E S.
  - exists w. auto.
  - destruct Ww as [|c' t' Hc' W'|body' t' F' W'].
    + exfalso. cbn [app] in E. subst x. eapply (solid_ws (c :: t)); [constructor; auto|discriminate|exact S].
    + inversion E; subst. eapply IH; eauto.
    + inversion E; subst. discriminate.
  - destruct Ww as [|c' t' Hc' W'|body' t' F' W'].
    + exfalso. cbn [app] in E. subst x. eapply (solid_ws (35 :: body ++ 10 :: t)); [apply ws_comment; auto|discriminate|exact S].
    + inversion E; subst. discriminate.
    + inversion E as [E']. rewrite <- !app_assoc in E'. apply (span (fun c => c <> 10)) in E' as [_ E']; auto.
      * cbn in E'. inversion E'. eapply IH; eauto.
      * intros c r Ec Nc. inversion Ec; subst. auto.
      * intros c r Ec Nc. inversion Ec; subst. auto.
Qed.
Lemma items_solid its t c : r_items its t -> last_comment c -> solid (t ++ c).
Proof.
  intros H L. destruct H as [|f e its w t w' t' Hf _ _ _ _ _]; [right; exact L|].
  rewrite <- app_assoc. apply item_solid; auto.
Qed.
Lemma fin_ws w x : ws w -> w <> [] -> fin (w ++ x).
Proof. intros. exists None. apply folb_ws; auto. Qed.

(** A document, white space, anything: if the whole is a document, it starts with the items of the first. *)
Lemma cat_items its1 t1 : r_items its1 t1 -> forall w s y its w' T c, ws w -> ws s -> s <> [] -> ws w' ->
  r_items its T -> last_comment c -> w ++ t1 ++ s ++ y = w' ++ T ++ c ->
  exists its2, its = its1 ++ its2 /\ r_doc its2 y.
Proof.
  induction 1 as [|f e its1 w1 te w2 t1 Hf W1 He W2 D H IH]; intros w s y its w' T c W S NS W' R L E.
  - cbn [app] in E. exists its. split; auto. rewrite app_assoc in E.
    destruct (ws_strip (w ++ s) (ws_app _ _ W S) w' y (T ++ c) W' E (items_solid _ _ _ R L)) as (w3 & W3 & ->).
    exists w3, T, c. auto.
  - destruct R as [|f' e' its' w1' te' w2' t' Hf' W1' He' W2' D' H'].
    + exfalso. cbn [app] in E. rewrite <- app_assoc in E. apply (ws_uniq _ W _ _ _ W') in E; [|apply item_solid; auto|right; auto].
      eapply item_not_stop; [exact Hf|]. rewrite E. right; auto.
    + rewrite <- !app_assoc in E. apply (ws_uniq _ W _ _ _ W') in E; [|apply item_solid; auto..].
      cbn [app] in E. apply (span (fun c => c <> 58)) in E as [-> E]; [|apply item_colon; auto|apply item_colon; auto|intros ? ? X; inversion X; auto..].
      apply (f_equal (@tl _)) in E. cbn [tl] in E. rewrite <- !app_assoc in E.
      apply (ws_uniq _ W1 _ _ _ W1') in E; [|eapply expr_solid; eauto..].
      destruct uniq_all as (_ & A & _). apply (A _ _ He e' te') in E as [-> E]; auto.
      * destruct (IH w2 s y its' w2' t' c) as (its2 & -> & K); auto. exists its2. auto.
      * destruct D as [->|D]; [|apply fin_ws; auto]. apply r_items_nil in H. subst t1. cbn [app].
        rewrite app_assoc. apply fin_ws; [apply ws_app; auto|]. intros X. apply app_eq_nil in X as [_ X]. auto.
      * apply (fin_items w2' its'); auto. right; auto.
Qed.
Lemma last_ws c : last_comment c -> ws (c ++ [c_nl]).
Proof.
  intros [->|(b & -> & F)]; [repeat constructor|]. cbn [app]. change (b ++ [c_nl]) with (b ++ c_nl :: []). apply ws_comment; auto. constructor.
Qed.
Lemma cat_doc its1 t1 t2 its : r_doc its1 t1 -> r_doc its (t1 ++ c_nl :: t2) ->
  exists its2, its = its1 ++ its2 /\ r_doc its2 t2.
Proof.
  intros (w & t & c & -> & W & H & L) (w' & T & c' & E & W' & R & L').
  assert (E' : w ++ t ++ (c ++ [c_nl]) ++ t2 = w' ++ T ++ c') by (rewrite <- E, <- !app_assoc; reflexivity).
  eapply cat_items in E'; eauto; [apply last_ws; auto|]. intros X. apply app_eq_nil in X as [_ X]. discriminate.
Qed.
(** Documents, one after the other, are a document. *)
Lemma items_cat its1 t1 : r_items its1 t1 -> forall s its2 t2, ws s -> s <> [] -> r_items its2 t2 ->
  exists w T, t1 ++ s ++ t2 = w ++ T /\ ws w /\ (its1 = [] \/ w = []) /\ r_items (its1 ++ its2) T.
Proof.
  induction 1 as [|f e its1 w1 te w2 t1 Hf W1 He W2 D H IH]; intros s its2 t2 S NS R2.
  - exists s, t2. auto.
  - destruct (IH s its2 t2 S NS R2) as (w & T & E & W & Dw & K). exists [], (f ++ c_colon :: w1 ++ te ++ (w2 ++ w) ++ T).
    split; [|split; [constructor|split; [auto|]]].
    + cbn [app]. repeat (rewrite <- app_assoc; cbn [app]). rewrite E. reflexivity.
    + cbn [app]. apply r_icons; auto; [apply ws_app; auto|].
      destruct D as [->|D].
      * apply r_items_nil in H. subst t1. cbn [app] in *. 
        destruct w as [|c w]; [|right; destruct w2; discriminate].
        cbn [app] in E. destruct S as [|c s' Hc S|body s' F S]; [contradiction| |].
        -- destruct (items_solid _ _ [] K (or_introl eq_refl)) as [(c' & r & X & Y)|X]; rewrite app_nil_r in X.
           ++ rewrite X in E. inversion E; subst. unfold is_whitespace in Y. rewrite Hc in Y. discriminate.
           ++ exfalso. eapply (solid_ws (c :: s') t2); [constructor; auto|discriminate|right; rewrite E; exact X].
        -- exfalso. eapply (solid_ws (35 :: body ++ 10 :: s') t2); [apply ws_comment; auto|discriminate|].
           cbn [app] in *. rewrite E. rewrite <- (app_nil_r T). eapply items_solid; [exact K|left; auto].
      * right. intros X. apply app_eq_nil in X as [X _]. auto.
Qed.
Lemma doc_cat its1 t1 its2 t2 : r_doc its1 t1 -> r_doc its2 t2 -> r_doc (its1 ++ its2) (t1 ++ c_nl :: t2).
Proof.
  intros (w & t & c & -> & W & H & L) (w' & T & c' & -> & W' & R & L').
  destruct (items_cat _ _ H ((c ++ [c_nl]) ++ w') its2 T) as (w3 & T3 & E & W3 & D & K); auto.
  - apply ws_app; auto. apply last_ws; auto.
  - intros X. apply app_eq_nil in X as [X _]. apply app_eq_nil in X as [_ X]. discriminate.
  - exists (w ++ w3), T3, c'. split; [|split; [apply ws_app; auto|split; auto]].
    repeat (rewrite <- app_assoc in *; cbn [app] in *). rewrite (app_assoc w3), <- E. repeat (rewrite <- app_assoc; cbn [app]). reflexivity.
Qed.

(** A text cut off: the items are the first items of the whole, except that the last value may be cut. *)
Definition cut (e e' : expr) : Prop := exists te te' y, r_expr e te /\ r_expr e' te' /\ te' = te ++ y.
Lemma fin_cons c r r' : fin (c :: r) -> fin (c :: r').
Proof.
  intros [b [H|(c' & x & E & H)]]; [discriminate|]. inversion E; subst. exists b. right. eauto.
Qed.
Lemma prefix_items its t : r_items its t -> forall w its' w' T c c' y, ws w -> ws w' -> r_items its' T ->
  last_comment c -> last_comment c' -> w ++ t ++ c ++ y = w' ++ T ++ c' ->
  exists rest, its' = its ++ rest \/
    exists pre f e e', its = pre ++ [(f, e)] /\ its' = pre ++ (f, e') :: rest /\ cut e e'.
Proof.
  induction 1 as [|f e its w1 te w2 t Hf W1 He W2 D H IH]; intros w its' w' T c c' y W W' R L L' E.
  - exists its'. auto.
  - destruct R as [|f' e' its' w1' te' w2' t' Hf' W1' He' W2' D' H'].
    + exfalso. cbn [app] in E. rewrite <- app_assoc in E. apply (ws_uniq _ W _ _ _ W') in E; [|apply item_solid; auto|right; auto].
      eapply item_not_stop; [exact Hf|]. rewrite E. right; auto.
    + rewrite <- !app_assoc in E. apply (ws_uniq _ W _ _ _ W') in E; [|apply item_solid; auto..].
      cbn [app] in E. apply (span (fun c => c <> 58)) in E as [-> E]; [|apply item_colon; auto|apply item_colon; auto|intros ? ? X; inversion X; auto..].
      apply (f_equal (@tl _)) in E. cbn [tl] in E. rewrite <- !app_assoc in E.
      apply (ws_uniq _ W1 _ _ _ W1') in E; [|eapply expr_solid; eauto..].
      assert (F' : fin (w2' ++ t' ++ c')) by (apply (fin_items w2' its'); auto; right; auto).
      assert (C : fin (w2 ++ t ++ c ++ y) \/ (its = [] /\ w2 = [] /\ c = [])).
      { destruct w2 as [|c2 w2]; [|left; apply fin_ws; auto; discriminate]. destruct D as [->|D]; [|contradiction].
        apply r_items_nil in H. subst t. destruct L as [->|(b & -> & _)]; auto. left. exists None. right.
        eexists _, _. split; [reflexivity|]. left. reflexivity. }
      destruct uniq_all as (_ & A & _). destruct C as [C|(-> & -> & ->)].
      * apply (A _ _ He e' te') in E as [-> E]; auto.
        destruct (IH w2 its' w2' t' c c' y) as (rest & [-> |(pre & g & e1 & e2 & -> & -> & K)]); auto; exists rest; auto.
        right. exists ((f', e') :: pre), g, e1, e2. auto.
      * apply r_items_nil in H. subst t. cbn [app] in E. exists its'. right. exists [], f', e, e'. split; [auto|]. split; [auto|].
        destruct (app_eq_app _ _ _ _ E) as (z & [[X1 X2]|[X1 X2]]); [|exists te, te', z; auto].
        destruct z as [|c z]; [rewrite app_nil_r in X1; subst te; exists te', te', []; rewrite app_nil_r; auto|].
        exfalso. assert (X : te ++ [] = te' ++ c :: z) by (rewrite app_nil_r; auto).
        apply (A _ _ He e' te') in X as [_ X]; auto; [discriminate|exists None; left; auto|].
        eapply fin_cons. rewrite X2 in F'. exact F'.
Qed.

(** Strings and containers cannot be cut. *)
Definition closed (v : value) : bool :=
  match v with VStr _ | VArr _ | VTup _ | VObj _ => true | _ => false end.
Lemma expr_atom a t : r_expr (Ex a []) t -> r_atom a t.
Proof.
  intros H. inversion H as [? ? t1 t2 A C]; subst. inversion C; subst. rewrite app_nil_r. exact A.
Qed.
Lemma chain_nil l : r_chain l [] -> l = [].
Proof. intros H. inversion H; auto. Qed.
Lemma closed_atom a t a' t' x y : r_atom a t -> r_atom a' t' -> t' = t ++ x ++ y ->
  match a' with AStr _ | AArr _ | ATup _ | AObj _ => True | _ => False end -> a = a' /\ x = [].
Proof.
  intros RA RA' E Ha. destruct uniq_all as (_ & _ & _ & AE & AI).
  assert (K : acls a = acls a').
  { destruct (atom_cls _ _ RA) as (c & r & -> & <-). destruct (atom_cls _ _ RA') as (c' & r' & X & <-).
    rewrite X in E. cbn [app] in E. inversion E; subst. reflexivity. }
  assert (NE : forall (x y : str), [] = x ++ y -> x = []).
  { intros x0 y0 X. symmetry in X. apply app_eq_nil in X. tauto. }
  destruct RA' as [w Hw|cs' F'|glob n Hn|glob n sub q Hn Hs Rs|op b q Rb|es w q W R|es w q W R|its w q W R|e w q w' W R W'|e e2 w q w' t2 w2 W R W' N R2 W2];
    try contradiction; clear Ha;
  destruct RA as [v Hv|cs F|glob n Hn|glob n sub r Hn Hs Rs|[] b r Rb|es' v r V R'|es' v r V R'|its' v r V R'|e v r w' V R' W'|e e2 v r w' t2 w2 V R' W' N R2 W2];
    try discriminate K.
  - cbn [app] in E. inversion E as [E1]. rewrite <- app_assoc in E1. apply str_uniq in E1 as [-> E1]; auto. split; auto. eapply NE; eauto.
  - cbn [app] in E. inversion E as [E1]. rewrite <- !app_assoc in E1.
    apply (AE _ _ R w es' v r) in E1 as [-> E1]; auto; try (apply stop_delim; reflexivity). split; auto. inversion E1. eapply NE; eauto.
  - cbn [app] in E. inversion E as [E1]. rewrite <- !app_assoc in E1.
    apply (AE _ _ R w es' v r) in E1 as [-> E1]; auto; try (apply stop_delim; reflexivity). split; auto. inversion E1. eapply NE; eauto.
  - cbn [app] in E. inversion E as [E1]. rewrite <- !app_assoc in E1.
    apply (AI _ _ R w its' v r) in E1 as [-> E1]; auto; try (apply stop_delim; reflexivity). split; auto. inversion E1. eapply NE; eauto.
Qed.
Lemma closed_cut e v : cut e (quote v) -> closed v = true -> e = quote v.
Proof.
  intros (te & te' & y & R & R' & E) C.
  assert (Hc : exists a, quote v = Ex a [] /\ match a with AStr _ | AArr _ | ATup _ | AObj _ => True | _ => False end).
  { destruct v as [| | | |s|[]|[]|o]; try discriminate C; eexists; split; try reflexivity; exact I. }
  destruct Hc as (a' & Q & Ha). rewrite Q in *. apply expr_atom in R'.
  destruct R as [a l t x RA RC]. rewrite <- app_assoc in E.
  destruct (closed_atom a t a' te' x y RA R' E Ha) as [-> ->]. apply chain_nil in RC. subst l. reflexivity.
Qed.
End Prefix.
