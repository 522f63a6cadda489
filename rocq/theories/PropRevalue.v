(** * PropRevalue: other texts, fractions and truth values do not change the structure (C80). *)
From Verif Require Export Revalue EvalProofs.
From Verif Require PropReplace.
From Verif Require Import PropConstants PropRefactor PropAfresh Complete Render PropRound PropHistory PropNames ReorgProofs.
From Coq Require String.
Import String.StringSyntax.
Open Scope N_scope.

(** ** The structure of values *)
Definition sp (p : pair_t) : pair_t := (fst p, structure (snd p)).
Lemma structure_pairs i ps par : structure_obj (MkObj i ps par) = MkObj i (map sp ps) (option_map structure_obj par).
Proof. cbn. f_equal; try (apply map_ext; intros [f v]; reflexivity); destruct par; reflexivity. Qed.
Lemma structure_type v v' : structure v = structure v' -> get_type v = get_type v'.
Proof.
  intros E. destruct v as [|b|z|q|s|[i t vs]|[i t vs]|[i ps p]], v' as [|b'|z'|q'|s'|[j t' vs']|[j t' vs']|[j ps' p']]; try discriminate; try reflexivity;
    cbn in E; injection E; intros; subst; reflexivity.
Qed.
Lemma structure_types l l' : map structure l = map structure l' -> map get_type l = map get_type l'.
Proof.
  revert l'. induction l as [|v l IH]; intros [|v' l'] E; try discriminate; [reflexivity|]. injection E as E1 E2. cbn [map]. rewrite (structure_type _ _ E1), (IH _ E2). reflexivity.
Qed.
Lemma structure_assoc f ps ps' : map sp ps = map sp ps' ->
  match assoc f ps, assoc f ps' with Some v, Some v' => structure v = structure v' | None, None => True | _, _ => False end.
Proof.
  revert ps'. induction ps as [|[h v] ps IH]; intros [|[h' v'] ps'] E; try discriminate; [exact I|]. cbn [map] in E. injection E as -> E1 E2.
  cbn [assoc]. destruct (str_eqb h' f); [exact E1|]. apply IH. exact E2.
Qed.
Lemma structure_names ps ps' : map sp ps = map sp ps' -> map fst ps = map fst ps'.
Proof. intros E. apply (f_equal (map fst)) in E. rewrite !map_map in E. exact E. Qed.
Lemma structure_nth l l' n : map structure l = map structure l' ->
  match nth_error l n, nth_error l' n with Some v, Some v' => structure v = structure v' | None, None => True | _, _ => False end.
Proof.
  intros E. pose proof (f_equal (fun l => nth_error l n) E) as K. cbn beta in K. rewrite !nth_error_map in K.
  destruct (nth_error l n), (nth_error l' n); cbn in K; try discriminate; [injection K; auto|exact I].
Qed.

Section E.
Variable dv : bool.
Definition st (x x' : est) : Prop := map sp (fst x) = map sp (fst x') /\ snd x = snd x'.
Definition rv {A} (Q : A -> A -> Prop) (m m' : ES A) : Prop := forall x x' a y, st x x' -> m x = Some (a, y) ->
  (exists a' y', m' x' = Some (a', y') /\ Q a a' /\ st y y') \/ (dv = true /\ m' x' = None).
(** What an include means may differ in the same way. *)
Variables inc inc' : inc_ty -> str -> ES value.
Variable lim : N -> bool.
Notation eva d fields a := (ev_atom inc lim d fields a).
Notation eve d fields e := (ev_expr inc lim d fields e).
Notation eva' d fields a := (ev_atom inc' lim d fields a).
Notation eve' d fields e := (ev_expr inc' lim d fields e).
Definition sv (v v' : value) : Prop := structure v = structure v'.
Hypothesis rv_inc : forall k p, rv sv (inc k p) (inc' k p).
Definition svs (l l' : list value) : Prop := map structure l = map structure l'.

Lemma rv_ret {A} (Q : A -> A -> Prop) a a' : Q a a' -> rv Q (eret a) (eret a').
Proof. intros H x x' b y S E. injection E as <- <-. left. exists a', x'. auto. Qed.
Lemma rv_fail {A} (Q : A -> A -> Prop) m : rv Q efail m.
Proof. intros x x' b y S E. discriminate. Qed.
Lemma rv_bind {A B} (Q : A -> A -> Prop) (Q' : B -> B -> Prop) m m' f f' : rv Q m m' -> (forall a a', Q a a' -> rv Q' (f a) (f' a')) -> rv Q' (ebind m f) (ebind m' f').
Proof.
  intros H K x x' b y S E. apply ebind_some in E as (a & z & E1 & E2). destruct (H _ _ _ _ S E1) as [(a' & z' & E1' & Qa & S')|[D E1']].
  - destruct (K a a' Qa _ _ _ _ S' E2) as [(b' & y' & E2' & R)|[D E2']]; [left; exists b', y'; split; [|exact R]|right; split; [exact D|]]; unfold ebind; rewrite E1'; assumption.
  - right. split; [exact D|]. unfold ebind. rewrite E1'. reflexivity.
Qed.
Lemma rv_deep {A} (Q : A -> A -> Prop) d m m' : rv Q m m' -> rv Q (deep lim d m) (deep lim d m').
Proof. intros H. unfold deep. destruct (lim d); [exact H|apply rv_fail]. Qed.
Lemma rv_fresh : rv eq fresh fresh.
Proof. intros [gl sh] [gl' sh'] a y [S1 S2] E. cbn [fst snd] in *. subst sh'. injection E as <- <-. left. do 2 eexists. split; [reflexivity|]. split; [reflexivity|]. split; [exact S1|reflexivity]. Qed.
Lemma rv_sentinel k : rv eq (esentinel k) (esentinel k).
Proof.
  intros [gl sh] [gl' sh'] a y [S1 S2] E. cbn [fst snd] in *. subst sh'. left. unfold esentinel in *. cbn [snd] in *.
  destruct (g_sent (sh_g sh) k); injection E as <- <-; do 2 eexists; (split; [reflexivity|]); (split; [reflexivity|]); (split; [exact S1|reflexivity]).
Qed.
Lemma rv_globals : rv (fun g g' => map sp g = map sp g') eglobals eglobals.
Proof. intros x x' a y S E. injection E as <- <-. left. do 2 eexists. split; [reflexivity|]. split; [apply S|exact S]. Qed.
Lemma rv_define f v v' : sv v v' -> rv (fun _ _ => True) (edefine f v) (edefine f v').
Proof.
  intros H x x' a y [S1 S2] E. injection E as <- <-. left. do 2 eexists. split; [reflexivity|]. split; [exact I|]. split; [|exact S2].
  cbn [fst map]. rewrite S1. f_equal. unfold sp. cbn [fst snd]. rewrite H. reflexivity.
Qed.
(** options *)
Definition ro {A} (Q : A -> A -> Prop) (o o' : option A) : Prop := match o, o' with Some a, Some a' => Q a a' | Some _, None => dv = true | None, _ => True end.
Lemma rv_lift {A} (Q : A -> A -> Prop) o o' : ro Q o o' -> rv Q (elift o) (elift o').
Proof.
  intros H x x' a y S E. destruct o as [b|]; [|discriminate]. injection E as <- <-. destruct o' as [b'|]; [left; exists b', x'; auto|right; auto].
Qed.
Lemma rv_emap {A B} (Q : B -> B -> Prop) (f f' : A -> ES B) l l' : Forall2 (fun a a' => rv Q (f a) (f' a')) l l' -> rv (Forall2 Q) (emap f l) (emap f' l').
Proof.
  induction 1 as [|a a' l l' H _ IH]; cbn [emap]; [apply rv_ret; constructor|]. eapply rv_bind; [exact H|]. intros v v' Qv.
  eapply rv_bind; [exact IH|]. intros vs vs' Qs. apply rv_ret. constructor; assumption.
Qed.
Lemma rv_weaken {A} (Q Q' : A -> A -> Prop) m m' : (forall a a', Q a a' -> Q' a a') -> rv Q m m' -> rv Q' m m'.
Proof. intros H K x x' a y S E. destruct (K x x' a y S E) as [(a' & y' & E' & Qa & S')|R]; [left; exists a', y'; auto|right; exact R]. Qed.
Lemma svs_all l l' : Forall2 sv l l' -> svs l l'.
Proof. unfold svs, sv. induction 1; cbn [map]; congruence. Qed.

Lemma rv_name fields fields' g n : map sp fields = map sp fields' -> rv sv (ev_name fields g n) (ev_name fields' g n).
Proof.
  intros F. unfold ev_name. destruct g.
  - eapply rv_bind; [apply rv_globals|]. intros gl gl' G. apply rv_lift. pose proof (structure_assoc (c_at :: n) _ _ G) as K. unfold ro.
    destruct (assoc _ gl), (assoc _ gl'); try contradiction; auto.
  - destruct (assoc n constants); [apply rv_ret; reflexivity|]. destruct (assoc n keywords).
    + eapply rv_bind; [apply rv_sentinel|]. intros o o' <-. apply rv_ret. reflexivity.
    + apply rv_lift. pose proof (structure_assoc n _ _ F) as K. unfold ro. destruct (assoc _ fields), (assoc _ fields'); try contradiction; auto.
Qed.
(** Same kind of value. *)
Lemma sv_cases v v' : sv v v' ->
  match v with
  | VNull => v' = VNull | VBool _ => exists b, v' = VBool b | VInt z => v' = VInt z | VFrac _ => exists q, v' = VFrac q | VStr _ => exists s, v' = VStr s
  | VArr a => exists a', v' = VArr a' /\ arr_inner_type a = arr_inner_type a' /\ svs (arr_values a) (arr_values a')
  | VTup a => exists a', v' = VTup a' /\ svs (tup_values a) (tup_values a')
  | VObj o => exists o', v' = VObj o' /\ structure_obj o = structure_obj o' /\ map sp (obj_pairs o) = map sp (obj_pairs o')
  end.
Proof.
  unfold sv. intros E. destruct v as [|b|z|q|s|[i t vs]|[i t vs]|[i ps p]], v' as [|b'|z'|q'|s'|[j t' vs']|[j t' vs']|[j ps' p']]; try discriminate; eauto.
  - cbn in E. injection E; intros; subst. eexists. split; [reflexivity|]. split; [reflexivity|assumption].
  - cbn in E. injection E; intros; subst. eexists. split; [reflexivity|assumption].
  - change (VObj (structure_obj (MkObj i ps p)) = VObj (structure_obj (MkObj j ps' p'))) in E. apply (f_equal (fun v => match v with VObj o => o | _ => MkObj 0 [] None end)) in E. cbv beta iota in E. eexists. split; [reflexivity|]. split; [exact E|].
    rewrite !structure_pairs in E. injection E; intros; assumption.
Qed.
Lemma ro_un op v v' : sv v v' -> ro sv (un_value op v) (un_value op v').
Proof. intros H. apply sv_cases in H. destruct v, op; cbn; try exact I; try (subst; reflexivity); destruct H as (q' & ->); reflexivity. Qed.
Lemma ro_op op v v' w w' : (op = BDiv -> dv = true) -> sv v v' -> sv w w' -> ro sv (op_value op v w) (op_value op v' w').
Proof.
  intros D H K. apply sv_cases in H. apply sv_cases in K.
  destruct v; try (destruct w; exact I); destruct w; try exact I; repeat match goal with H : exists _, _ |- _ => destruct H as (? & ?) end; subst;
    cbn [op_value as_frac]; destruct op; cbn; try exact I; try reflexivity;
    repeat match goal with |- context [if ?b then _ else _] => destruct b end; cbn; auto; try reflexivity.
Qed.
Lemma rv_ev_op op v v' w w' : (op = BDiv -> dv = true) -> sv v v' -> sv w w' -> rv sv (ev_op op v w) (ev_op op v' w').
Proof.
  intros D H K. assert (G : rv sv (elift (op_value op v w)) (elift (op_value op v' w'))) by (apply rv_lift, ro_op; assumption).
  unfold ev_op. destruct op; try exact G. pose proof (sv_cases _ _ H) as HC. pose proof (sv_cases _ _ K) as KC.
  destruct v; try (subst v'; exact G); try (destruct HC as (? & ->); exact G); destruct HC as (? & -> & HC); try exact G.
  destruct w; try (subst w'; exact G); try (destruct KC as (? & ->); exact G); destruct KC as (? & -> & KC); try exact G.
  destruct HC as [T1 V1], KC as [T2 V2]. rewrite <- T1, <- T2. destruct (most_specific _ _) as [[t b]|]; [|apply rv_fail].
  eapply rv_bind; [apply rv_fresh|]. intros i i' <-. apply rv_ret. unfold sv. cbn. rewrite !map_app. unfold svs in *. rewrite V1, V2. reflexivity.
Qed.
Definition sacc (a a' : option (value * binop)) : Prop :=
  match a, a' with None, None => True | Some (s, op), Some (s', op') => op = op' /\ op <> BDiv /\ sv s s' | _, _ => False end.
Lemma rv_add acc acc' v v' : sacc acc acc' -> sv v v' -> rv sv (add_up acc v) (add_up acc' v').
Proof.
  intros A H. destruct acc as [[s op]|], acc' as [[s' op']|]; try contradiction; cbn [add_up]; [|apply rv_ret; exact H].
  destruct A as (<- & N & A). apply rv_ev_op; auto.
Qed.
Definition pok (p p' : binop * value) : Prop := fst p = fst p' /\ (fst p = BDiv -> dv = true) /\ sv (snd p) (snd p').
Lemma rv_chain l l' : Forall2 pok l l' -> forall acc acc' v v', sacc acc acc' -> sv v v' -> rv sv (ev_chain acc v l) (ev_chain acc' v' l').
Proof.
  induction 1 as [|[op w] [op' w'] l l' (P1 & P2 & P3) _ IH]; intros acc acc' v v' A H; cbn [ev_chain]; [apply rv_add; assumption|].
  cbn [fst snd] in *. subst op'. destruct (is_priority op) eqn:Ep.
  - eapply rv_bind; [apply rv_lift, ro_op; eassumption|]. intros p p' Hp. apply IH; assumption.
  - eapply rv_bind; [apply rv_add; eassumption|]. intros s s' Hs. apply IH; [|assumption]. cbn. repeat split; auto. intros ->. discriminate.
Qed.
Lemma ro_index vs vs' i i' : svs vs vs' -> sv i i' -> ro sv (ev_index vs i) (ev_index vs' i').
Proof.
  intros H K. apply sv_cases in K. destruct i; try exact I. subst i'. cbn [ev_index]. destruct (_ && _); [|exact I].
  pose proof (structure_nth _ _ (Z.to_nat z) H) as N. unfold ro. destruct (nth_error vs _), (nth_error vs' _); try contradiction; auto.
Qed.
Definition spar (p p' : option obj) : Prop := option_map structure_obj p = option_map structure_obj p'.
Definition sres (r r' : list pair_t * option obj) : Prop := map sp (fst r) = map sp (fst r') /\ spar (snd r) (snd r').
Definition same_item (ev ev' : list pair_t -> expr -> ES value) (p p' : str * expr) : Prop :=
  fst p = fst p' /\ forall fields fields', map sp fields = map sp fields' -> rv sv (ev fields (snd p)) (ev' fields' (snd p')).
Lemma rv_items ev ev' its its' : Forall2 (same_item ev ev') its its' -> forall fields fields' p p', map sp fields = map sp fields' -> spar p p' ->
  rv sres (ev_items ev its fields p) (ev_items ev' its' fields' p').
Proof.
  induction 1 as [|[h e] [h' e'] its its' [H1 H2] _ IH]; intros fields fields' p p' F P.
  - cbn [ev_items]. apply rv_ret. split; assumption.
  - cbn [fst snd] in *. subst h'. rewrite !ev_items_cons. destruct (kind_of_item h); [| | |apply rv_fail].
    + eapply rv_bind; [apply rv_globals|]. intros g g' G. pose proof (structure_assoc h _ _ G) as K.
      destruct (assoc h g), (assoc h g'); try contradiction; [apply rv_fail|]. eapply rv_bind; [apply H2; exact F|]. intros v v' Hv.
      eapply rv_bind; [apply rv_define; exact Hv|]. intros _ _ _. apply IH; assumption.
    + destruct p as [q|], p' as [q'|]; try discriminate P; try apply rv_fail. eapply rv_bind; [apply H2; exact F|]. intros v v' Hv. apply sv_cases in Hv.
      destruct v; try (apply rv_fail). destruct Hv as (o' & -> & Ho & _). apply IH; [exact F|]. unfold spar. cbn. congruence.
    + rewrite (structure_names _ _ F). destruct (mem_str _ _); [apply rv_fail|]. eapply rv_bind; [apply H2; exact F|]. intros v v' Hv. apply IH; [|exact P].
      rewrite !map_app, F. cbn [map]. do 2 f_equal. unfold sp. cbn [fst snd]. rewrite Hv. reflexivity.
Qed.
Lemma rv_keyword o ks : rv eq (ev_keyword o ks) (ev_keyword o ks).
Proof.
  induction ks as [|k ks IH]; cbn [ev_keyword]; [apply rv_ret; reflexivity|]. eapply rv_bind; [apply rv_sentinel|]. intros s s' <-.
  destruct (_ =? _); [apply rv_ret; reflexivity|exact IH].
Qed.
Lemma rv_str cs d fields fields' : rv eq (eve d fields (Ex (AStr cs) [])) (eve' d fields' (Ex (AStr cs) [])).
Proof.
  intros x x' a y S E. rewrite ev_atom_expr in *. cbn [ev_atom] in *. destruct (str_value cs); [|discriminate]. injection E as <- <-. left. do 2 eexists. split; [reflexivity|]. auto.
Qed.
Lemma rv_path k a p d fields fields' : includes_path k a p -> rv sv (eva d fields a) (eva' d fields' a).
Proof.
  intros [cs q Hs|k' kw cs q K Hs]; rewrite !ev_inc; apply rv_deep.
  - eapply rv_bind; [apply rv_str|]. intros v v' <-. destruct v; try apply rv_fail; [apply rv_inc|].
    eapply rv_bind; [apply rv_keyword|]. intros r r' <-. destruct r; apply rv_fail.
  - eapply rv_bind with (Q := eq).
    { intros x x' u y S E. rewrite (ev_kw _ _ _ _ kw k' x K) in E. rewrite (ev_kw _ _ _ _ kw k' x' K). revert x x' u y S E. change (rv eq (ebind (esentinel k') (fun o => eret (VObj o))) (ebind (esentinel k') (fun o => eret (VObj o)))). eapply rv_bind; [apply rv_sentinel|]. intros o o' <-. apply rv_ret. reflexivity. }
    intros v v' <-. destruct v; try apply rv_fail. eapply rv_bind; [apply rv_keyword|]. intros r r' <-. destruct r as [r|]; [|apply rv_fail].
    eapply rv_bind; [apply rv_str|]. intros w w' <-. destruct w; try apply rv_fail. apply rv_inc.
Qed.
Lemma other_by_name a a' : other_atom dv a a' -> by_name a = by_name a'.
Proof. intros []; reflexivity. Qed.

Scheme oa_min := Minimality for other_atom Sort Prop
  with oe_min := Minimality for other_expr Sort Prop
  with oo_min := Minimality for other_ops Sort Prop
  with ol_min := Minimality for other_list Sort Prop
  with oi_min := Minimality for other_items Sort Prop.
Combined Scheme other_min from oa_min, oe_min, oo_min, ol_min, oi_min.
Definition ga a a' : Prop := by_name a = by_name a' /\ forall d fields fields', map sp fields = map sp fields' -> rv sv (eva d fields a) (eva' d fields' a').
Definition ge e e' : Prop := forall d fields fields', map sp fields = map sp fields' -> rv sv (eve d fields e) (eve' d fields' e').
Lemma other_runs :
  (forall a a', other_atom dv a a' -> ga a a') /\
  (forall e e', other_expr dv e e' -> ge e e') /\
  (forall l l', other_ops dv l l' -> Forall2 (fun p p' => fst p = fst p' /\ (fst p = BDiv -> dv = true) /\ ga (snd p) (snd p')) l l') /\
  (forall l l', other_list dv l l' -> Forall2 ge l l') /\
  (forall l l', other_items dv l l' -> Forall2 (fun p p' => fst p = fst p' /\ ge (snd p) (snd p')) l l').
Proof.
  apply other_min.
  - intros w w' q q' H H'. split; [reflexivity|]. intros d fields fields' F. cbn [ev_atom]. rewrite H, H'. apply rv_lift. reflexivity.
  - intros cs cs' s s' H H'. split; [reflexivity|]. intros d fields fields' F. cbn [ev_atom]. rewrite H, H'. apply rv_lift. reflexivity.
  - intros n n' b b' H H'. split; [reflexivity|]. intros d fields fields' F. cbn [ev_atom ev_name]. rewrite H, H'. apply rv_ret. reflexivity.
  - intros w. split; [reflexivity|]. intros d fields fields' F. cbn [ev_atom]. apply rv_lift. destruct (num_value w); reflexivity.
  - intros g n. split; [reflexivity|]. intros d fields fields' F. cbn [ev_atom]. apply rv_name. exact F.
  - intros g n a a' _ [B IH]. split; [destruct g; reflexivity|]. intros d fields fields' F. rewrite !ev_dot'. eapply rv_bind; [apply rv_name; exact F|].
    intros v v' Hv. apply sv_cases in Hv. destruct v; try apply rv_fail.
    + destruct Hv as (w & -> & _ & Hv). eapply rv_bind; [apply IH; exact F|]. intros i i' Hi. apply rv_lift, ro_index; assumption.
    + destruct Hv as (w & -> & Hv). eapply rv_bind; [apply IH; exact F|]. intros i i' Hi. apply rv_lift, ro_index; assumption.
    + destruct Hv as (o' & -> & _ & Hv). rewrite <- B. destruct (by_name a); [|apply rv_fail]. apply IH. exact Hv.
  - intros op a a' _ [B IH]. split; [reflexivity|]. intros d fields fields' F. rewrite !ev_un. eapply rv_bind; [apply IH; exact F|]. intros v v' Hv. apply rv_lift, ro_un. exact Hv.
  - intros es es' _ IH. split; [reflexivity|]. intros d fields fields' F. rewrite !ev_arr. apply rv_deep. eapply rv_bind.
    { apply rv_emap with (Q := sv). eapply Forall2_impl; [|exact IH]. intros e e' He. apply He. exact F. }
    intros vs vs' Hs. apply svs_all in Hs. rewrite (structure_types _ _ Hs). destruct (lub _); [|apply rv_fail]. eapply rv_bind; [apply rv_fresh|]. intros i i' <-.
    apply rv_ret. unfold sv. cbn. unfold svs in Hs. rewrite Hs. reflexivity.
  - intros es es' _ IH. split; [reflexivity|]. intros d fields fields' F. rewrite !ev_tup. apply rv_deep. eapply rv_bind.
    { apply rv_emap with (Q := sv). eapply Forall2_impl; [|exact IH]. intros e e' He. apply He. exact F. }
    intros vs vs' Hs. apply svs_all in Hs. eapply rv_bind; [apply rv_fresh|]. intros i i' <-.
    apply rv_ret. unfold sv. cbn. rewrite (structure_types _ _ Hs). unfold svs in Hs. rewrite Hs. reflexivity.
  - intros its its' _ IH. split; [reflexivity|]. intros d fields fields' F. rewrite !ev_obj. apply rv_deep. eapply rv_bind.
    { apply rv_items; [|reflexivity|reflexivity]. eapply Forall2_impl; [|exact IH]. intros [h e] [h' e'] [H1 H2]. split; [exact H1|]. intros fl fl' Fl. apply H2. exact Fl. }
    intros [r q] [r' q'] [H1 H2]. eapply rv_bind; [apply rv_fresh|]. intros i i' <-. apply rv_ret. unfold sv.
    change (VObj (structure_obj (MkObj i r q)) = VObj (structure_obj (MkObj i r' q'))). rewrite !structure_pairs. cbn [fst snd] in *. unfold spar in H2. rewrite H1, H2. reflexivity.
  - intros k a p Ip. split; [reflexivity|]. intros d fields fields' F. eapply rv_path. exact Ip.
  - intros a a' l l' _ [B IH] _ IHl d fields fields' F. rewrite !ev_expr_Ex. eapply rv_bind; [apply IH; exact F|]. intros v v' Hv. eapply rv_bind.
    { apply rv_emap with (Q := pok). eapply Forall2_impl; [|exact IHl]. intros [op b] [op' b'] (H1 & H2 & _ & H3). cbn [fst snd] in *. subst op'.
      eapply rv_bind; [apply H3; exact F|]. intros w w' Hw. apply rv_ret. repeat split; assumption. }
    intros vs vs' Hs. apply rv_chain; [exact Hs|exact I|exact Hv].
  - constructor.
  - intros op a a' l l' D _ IH _ IHl. constructor; auto.
  - constructor.
  - intros e e' l l' _ IH _ IHl. constructor; auto.
  - constructor.
  - intros h e e' l l' _ IH _ IHl. constructor; auto.
Qed.
Lemma other_doc its its' : other_items dv its its' -> rv same_structure (ev_doc inc lim its) (ev_doc inc' lim its').
Proof.
  intros H. unfold ev_doc. eapply rv_bind.
  { apply rv_items; [|reflexivity|reflexivity]. eapply Forall2_impl; [|exact (proj2 (proj2 (proj2 (proj2 other_runs))) _ _ H)].
    intros [h e] [h' e'] [H1 H2]. split; [exact H1|]. intros fl fl' Fl. apply H2. exact Fl. }
  intros [r q] [r' q'] [H1 H2]. eapply rv_bind; [apply rv_fresh|]. intros i i' <-. apply rv_ret. unfold same_structure. rewrite !structure_pairs. cbn [fst snd] in *.
  unfold spar in H2. rewrite H1, H2. reflexivity.
Qed.
Lemma other_arr_doc es es' : other_list dv es es' -> rv (fun a a' => sv (VArr a) (VArr a')) (ev_arr_doc inc lim es) (ev_arr_doc inc' lim es').
Proof.
  intros H. unfold ev_arr_doc. eapply rv_bind.
  { apply rv_emap with (Q := sv). eapply Forall2_impl; [|exact (proj1 (proj2 (proj2 (proj2 other_runs))) _ _ H)]. intros e e' He. apply He. reflexivity. }
  intros vs vs' Hs. apply svs_all in Hs. rewrite (structure_types _ _ Hs). destruct (lub _); [|apply rv_fail]. eapply rv_bind; [apply rv_fresh|]. intros i i' <-.
  apply rv_ret. unfold sv. cbn. unfold svs in Hs. rewrite Hs. reflexivity.
Qed.
Lemma other_tup_doc es es' : other_list dv es es' -> rv (fun a a' => sv (VTup a) (VTup a')) (ev_tup_doc inc lim es) (ev_tup_doc inc' lim es').
Proof.
  intros H. unfold ev_tup_doc. eapply rv_bind.
  { apply rv_emap with (Q := sv). eapply Forall2_impl; [|exact (proj1 (proj2 (proj2 (proj2 other_runs))) _ _ H)]. intros e e' He. apply He. reflexivity. }
  intros vs vs' Hs. apply svs_all in Hs. eapply rv_bind; [apply rv_fresh|]. intros i i' <-.
  apply rv_ret. unfold sv. cbn. rewrite (structure_types _ _ Hs). unfold svs in Hs. rewrite Hs. reflexivity.
Qed.
End E.
Lemma other_ev dv inc inc' c c' : (forall k p, rv dv sv (inc k p) (inc' k p)) -> other_contents dv c c' -> rv dv sv (ev_contents inc c) (ev_contents inc' c').
Proof.
  intros Hi H. destruct H as [t t'|its its' H|es es' H|es es' H]; cbn [ev_contents].
  - apply rv_ret. reflexivity.
  - eapply rv_bind; [apply other_doc; [exact Hi|exact H]|]. intros o o' Ho. apply rv_ret. unfold sv. change (VObj (structure_obj o) = VObj (structure_obj o')). f_equal. exact Ho.
  - eapply rv_bind; [apply other_arr_doc; [exact Hi|exact H]|]. intros o o' Ho. apply rv_ret. exact Ho.
  - eapply rv_bind; [apply other_tup_doc; [exact Hi|exact H]|]. intros o o' Ho. apply rv_ret. exact Ho.
Qed.
Lemma other_kind dv c c' : other_contents dv c c' -> kind_in c = kind_in c'.
Proof. intros []; reflexivity. Qed.
Lemma other_afresh dv fs fs' ar ar' : (forall p, canon fs' p = canon fs p) -> other_archive dv ar ar' ->
  forall n file k p, rv dv sv (afresh fs ar n file k p) (afresh fs' ar' n file k p).
Proof.
  intros Hc Ha. induction n as [|n IH]; intros file k p; cbn [afresh]; [apply rv_fail|]. rewrite Hc. destruct (canon fs (target file p)) as [full|]; [|apply rv_fail].
  specialize (Ha full). destruct (ar full) as [c|], (ar' full) as [c'|]; try contradiction; try apply rv_fail. rewrite <- (other_kind _ _ _ Ha).
  destruct (kind_eqb k (kind_in c)); [|apply rv_fail]. intros x x' a y [S1 S2] E. unfold apart in *. rewrite <- S2.
  destruct (ev_contents (afresh fs ar n (Some (target file p))) c ([], snd x)) as [[b z]|] eqn:Ec; [|discriminate]. injection E as <- <-.
  destruct (other_ev dv _ _ c c' (IH (Some (target file p))) Ha _ ([], snd x) _ _ (conj eq_refl eq_refl) Ec) as [(b' & z' & E' & Qb & _ & S')|[D E']]; rewrite E'.
  - left. do 2 eexists. split; [reflexivity|]. split; [exact Qb|]. split; [exact S1|exact S'].
  - right. auto.
Qed.
Lemma erase_structure : (forall v, erase (structure v) = structure (erase v)) /\ (forall o, erase_obj (structure_obj o) = structure_obj (erase_obj o)).
Proof.
  assert (L : forall l, Forall (fun v => erase (structure v) = structure (erase v)) l -> map erase (map structure l) = map structure (map erase l)).
  { intros l F. rewrite !map_map. apply map_ext_in. rewrite Forall_forall in F. exact F. }
  apply (value_obj_ind2 (fun v => erase (structure v) = structure (erase v)) (fun o => erase_obj (structure_obj o) = structure_obj (erase_obj o))); try reflexivity.
  - intros i t vs F. cbn. rewrite (L vs F). reflexivity.
  - intros i t vs F. cbn. rewrite (L vs F). reflexivity.
  - intros o H. change (VObj (erase_obj (structure_obj o)) = VObj (structure_obj (erase_obj o))). rewrite H. reflexivity.
  - intros i ps par F Hp. rewrite structure_pairs. cbn [erase_obj]. rewrite structure_pairs. f_equal.
    + rewrite !map_map. apply map_ext_in. intros [f v] I. unfold sp. cbn [fst snd]. f_equal. rewrite Forall_forall in F. exact (F _ (in_map snd _ _ I)).
    + destruct par as [q|]; [|reflexivity]. cbn [option_map]. f_equal. apply Hp. reflexivity.
Qed.
Lemma alike_shape o o' : alike o o' -> same_shape o o'.
Proof. unfold alike, same_shape. intros E. rewrite !(proj2 erase_structure), E. reflexivity. Qed.

Section P.
Context `{U : Unicode}.
Lemma include_indep fs file k p gl gl' sh v y : include_meaning fs file k p (gl, sh) = Some (v, y) ->
  fst y = gl /\ include_meaning fs file k p (gl', sh) = Some (v, (gl', snd y)).
Proof. intros E. split; [exact (inc_globals fs file k p _ v y E)|]. exact (inc_globals_indep fs file k p gl gl' sh v y E). Qed.
Lemma include_rv dv fs file k p : rv dv sv (include_meaning fs file k p) (include_meaning fs file k p).
Proof.
  intros [gl sh] [gl' sh'] v y [S1 S2] E. cbn [fst snd] in *. subst sh'. destruct (include_indep fs file k p gl gl' sh v y E) as [Y E']. left. exists v, (gl', snd y).
  split; [exact E'|]. split; [reflexivity|]. split; [cbn [fst]; rewrite Y; exact S1|reflexivity].
Qed.
Lemma st_refl x : st x x. Proof. split; reflexivity. Qed.
Lemma other_becomes items items' : other_items false items items' -> becomes same_structure items items'.
Proof.
  intros H fs file sh o x _ _ M. unfold meaning in *.
  destruct (other_doc false _ _ limit64 (include_rv false fs file) items items' H _ _ _ _ (st_refl _) M) as [(o' & x' & M' & Q & _)|[D _]]; [|discriminate].
  exists o', x'. auto.
Qed.
Lemma other_sym dv :
  (forall a a', other_atom dv a a' -> other_atom dv a' a) /\ (forall e e', other_expr dv e e' -> other_expr dv e' e) /\
  (forall l l', other_ops dv l l' -> other_ops dv l' l) /\ (forall l l', other_list dv l l' -> other_list dv l' l) /\
  (forall l l', other_items dv l l' -> other_items dv l' l).
Proof.
  apply other_min; intros; solve [constructor; auto | eapply other_frac; eauto | eapply other_text; eauto | eapply other_truth; eauto | eapply other_inc; eauto].
Qed.

(** ** Reading *)
Lemma structure_get : forall o f, obj_get (structure_obj o) f = option_map structure (obj_get o f).
Proof.
  fix IH 1. intros [i ps par] f. rewrite structure_pairs. cbn [obj_get].
  assert (A : forall l : list pair_t, assoc f (map sp l) = option_map structure (assoc f l)).
  { induction l as [|[h v] l IHl]; [reflexivity|]. cbn [map]. unfold sp at 1. cbn [fst snd assoc]. destruct (str_eqb h f); [reflexivity|exact IHl]. }
  rewrite (A ps). destruct (assoc f ps) as [v|]; [reflexivity|]. destruct par as [q|]; [apply IH|reflexivity].
Qed.
Lemma go_structure v s : go (structure v) s = option_map structure (go v s).
Proof.
  destruct v as [|b|z|q|t|[i t vs]|[i t vs]|o]; destruct s as [f|n|]; try reflexivity.
  - cbn. apply nth_error_map.
  - cbn. apply nth_error_map.
  - apply structure_get.
  - destruct o as [i ps par]. cbn [go]. change (structure (VObj (MkObj i ps par))) with (VObj (structure_obj (MkObj i ps par))). rewrite structure_pairs. cbn [obj_parent].
    destruct par; reflexivity.
Qed.
Lemma follow_structure path : forall v, follow (structure v) path = option_map structure (follow v path).
Proof. induction path as [|s path IH]; intros v; [reflexivity|]. cbn [follow]. rewrite go_structure. destruct (go v s) as [w|]; [apply IH|reflexivity]. Qed.

(** What "same structure" means to a reader: every path leads somewhere in both or in neither; it leads to values of the
    same type, which are the same container if they are containers, with the same names, and the same number if they are Ints. *)
Theorem C80_paths o o' : same_structure o o' -> forall path,
  match follow (VObj o) path, follow (VObj o') path with
  | Some v, Some v' => get_type v = get_type v' /\ identity v = identity v' /\ names v = names v' /\ as_int v = as_int v'
  | None, None => True
  | _, _ => False
  end.
Proof.
  intros H path. assert (E : option_map structure (follow (VObj o) path) = option_map structure (follow (VObj o') path)).
  { rewrite <- !follow_structure. f_equal. change (VObj (structure_obj o) = VObj (structure_obj o')). f_equal. exact H. }
  destruct (follow (VObj o) path) as [v|], (follow (VObj o') path) as [v'|]; try discriminate E; [|exact I]. injection E as E.
  split; [exact (structure_type _ _ E)|].
  destruct v as [|b|z|q|s|[i t vs]|[i t vs]|[i ps p]], v' as [|b'|z'|q'|s'|[j t' vs']|[j t' vs']|[j ps' p']]; try discriminate; try (repeat split; fail).
  - cbn in E. injection E as ->. repeat split.
  - cbn in E. injection E; intros; subst. repeat split.
  - cbn in E. injection E; intros; subst. repeat split.
  - change (VObj (structure_obj (MkObj i ps p)) = VObj (structure_obj (MkObj j ps' p'))) in E. rewrite !structure_pairs in E. injection E as -> E _. cbn. rewrite (structure_names _ _ E). repeat split.
Qed.

(** C80.  Two texts that differ only in which texts, fractions and truth values are written in them.  If both load, the two
    Objs have the same structure: the same fields in the same order, the same types, the same containers with the same
    identity (so the same ones are shared), the same Ints, nulls and parents. *)
Theorem C80_str fs g items items' text text' o o' : r_doc items text -> r_doc items' text' -> other_items true items items' ->
  from_str fs g text = Some (OOk o) -> from_str fs g text' = Some (OOk o') -> same_structure o o'.
Proof.
  intros R R' S E E'. apply (str_ok fs g items text R o) in E as [x E]. apply (str_ok fs g items' text' R' o') in E' as [x' E'].
  unfold str_meaning, meaning in *.
  destruct (other_doc true _ _ limit64 (include_rv true fs None) items items' S _ _ _ _ (st_refl _) E) as [(o2 & x2 & M' & Q & _)|[_ M']]; [|congruence].
  rewrite M' in E'. injection E' as <- _. exact Q.
Qed.
(** Without divisions, the one text loads if the other does. *)
Theorem C80_loads fs g items items' text text' o : g_ok g -> r_doc items text -> r_doc items' text' -> other_items false items items' ->
  from_str fs g text = Some (OOk o) -> exists o', from_str fs g text' = Some (OOk o') /\ same_structure o o'.
Proof. intros G R R' S E. exact (becomes_str same_structure items items' fs g text text' o G (other_becomes _ _ S) R R' E). Qed.
Theorem C80_loads_iff fs g items items' text text' : g_ok g -> r_doc items text -> r_doc items' text' -> other_items false items items' ->
  (exists o, from_str fs g text = Some (OOk o)) <-> (exists o', from_str fs g text' = Some (OOk o')).
Proof.
  intros G R R' S. split; intros (o & E).
  - destruct (C80_loads fs g _ _ _ _ o G R R' S E) as (o' & E' & _). eauto.
  - destruct (C80_loads fs g _ _ _ _ o G R' R (proj2 (proj2 (proj2 (proj2 (other_sym false)))) _ _ S) E) as (o' & E' & _). eauto.
Qed.
(** In a file that others may include. *)
Theorem C80_file fs fs' g path i fe i' fe' c items items' text text' o : g_ok g -> only_differs c fs fs' ->
  fs_entry fs path = Some (i, fe) -> fe_read fe = inl text -> fe_canon fe = Some c ->
  fs_entry fs' path = Some (i', fe') -> fe_read fe' = inl text' ->
  r_doc items text -> r_doc items' text' -> other_items false items items' ->
  from_file fs g path = Some (OOk o) -> exists o', from_file fs' g path = Some (OOk o') /\ same_structure o o'.
Proof.
  intros G D En Rd Fc En' Rd' R R' S E.
  exact (becomes_file same_structure items items' fs fs' g path i fe i' fe' c text text' o G (other_becomes _ _ S) D En Rd Fc En' Rd' R R' E).
Qed.

(** In all files of a project at once, its text files too. *)
Lemma other_project dv fs fs' ar ar' n items items' x o y : (forall p, canon fs' p = canon fs p) -> other_archive dv ar ar' -> other_items dv items items' ->
  ev_doc (afresh fs ar n None) limit64 items x = Some (o, y) ->
  (exists o' y', ev_doc (afresh fs' ar' n None) limit64 items' x = Some (o', y') /\ same_structure o o') \/
  (dv = true /\ ev_doc (afresh fs' ar' n None) limit64 items' x = None).
Proof.
  intros Hc Ha S E. destruct (other_doc dv _ _ limit64 (other_afresh dv fs fs' ar ar' Hc Ha n None) items items' S _ _ _ _ (st_refl _) E) as [(o' & y' & E' & Q & _)|R]; [left; eauto|right; exact R].
Qed.
Lemma same_structure_shape o o' : same_structure o o' -> same_shape o o'.
Proof. unfold same_structure, same_shape. congruence. Qed.
Lemma shape_trans a b c : same_shape a b -> same_shape b c -> same_shape a c. Proof. unfold same_shape. congruence. Qed.
Theorem C80_project_loads fs fs' ar ar' g items items' text text' o : coherent fs -> describes fs ar -> describes fs' ar' ->
  (forall p, canon fs' p = canon fs p) -> other_archive false ar ar' -> g_ok g ->
  r_doc items text -> r_doc items' text' -> other_items false items items' ->
  from_str fs g text = Some (OOk o) -> respects ar (sh_log (snd (parse_obj_str fs g text))) ->
  exists o', from_str fs' g text' = Some (OOk o') /\ same_shape o o' /\ respects ar' (sh_log (snd (parse_obj_str fs' g text'))).
Proof.
  intros Coh Des Des' Hc Ha G R R' S E Rs. assert (Coh' : coherent fs') by (intros p p' f q; rewrite !Hc; apply Coh).
  destruct (C67_str_back fs ar g items text o Coh Des G R E Rs) as (o1 & x & E1 & A1).
  destruct (other_project false fs fs' ar ar' _ items items' _ _ _ Hc Ha S E1) as [(o2 & y & E2 & Q)|[D _]]; [|discriminate].
  destruct (C67_str fs' ar' g _ items' text' o2 y Coh' Des' G R' E2) as (o' & E' & A2 & _ & Rs'). exists o'. split; [exact E'|]. split; [|exact Rs'].
  eapply shape_trans; [symmetry; exact (alike_shape _ _ A1)|]. eapply shape_trans; [exact (same_structure_shape _ _ Q)|]. exact (alike_shape _ _ A2).
Qed.
Theorem C80_project fs fs' ar ar' g items items' text text' o o' : coherent fs -> describes fs ar -> describes fs' ar' ->
  (forall p, canon fs' p = canon fs p) -> other_archive true ar ar' -> g_ok g ->
  r_doc items text -> r_doc items' text' -> other_items true items items' ->
  from_str fs g text = Some (OOk o) -> respects ar (sh_log (snd (parse_obj_str fs g text))) ->
  from_str fs' g text' = Some (OOk o') -> respects ar' (sh_log (snd (parse_obj_str fs' g text'))) -> same_shape o o'.
Proof.
  intros Coh Des Des' Hc Ha G R R' Oi E Rs E' Rs'. assert (Coh' : coherent fs') by (intros p p' f q; rewrite !Hc; apply Coh).
  destruct (C67_str_back fs ar g items text o Coh Des G R E Rs) as (o1 & x & E1 & A1).
  destruct (C67_str_back fs' ar' g items' text' o' Coh' Des' G R' E' Rs') as (o2 & x2 & E2 & A2).
  set (m := Nat.max (S (List.length (fs_files fs))) (S (List.length (fs_files fs')))).
  assert (More : forall fs ar n d x r, (n <= m)%nat -> ev_doc (afresh fs ar n None) limit64 d x = Some r -> ev_doc (afresh fs ar m None) limit64 d x = Some r).
  { clear. intros fs0 ar0 n d x [o y] L E. assert (M : ev_contents (afresh fs0 ar0 n None) (CObj d) x = Some (VObj o, y)) by (cbn [ev_contents]; unfold ebind; rewrite E; reflexivity).
    apply (contents_more _ (afresh fs0 ar0 m None)) in M; [|intros k p z s; apply afresh_le; exact L]. cbn [ev_contents] in M. apply ebind_some in M as (a & z & M & M2). injection M2 as -> ->. exact M. }
  apply (More fs ar _ items _ _ (Nat.le_max_l _ _)) in E1. apply (More fs' ar' _ items' _ _ (Nat.le_max_r _ _)) in E2.
  destruct (other_project true fs fs' ar ar' _ items items' _ _ _ Hc Ha Oi E1) as [(o3 & y & E3 & Q)|[_ E3]]; [|congruence]. rewrite E3 in E2. injection E2 as -> _.
  eapply shape_trans; [symmetry; exact (alike_shape _ _ A1)|]. eapply shape_trans; [exact (same_structure_shape _ _ Q)|]. exact (alike_shape _ _ A2).
Qed.
End P.

(** ** Concrete cases *)
Section Ex.
#[local] Instance ascii : Unicode := {| u_alpha := fun _ => false; u_debug := fun c => [c] |}.
Definition N_ (w : str) : expr := Ex (ANum w) [].
Definition tx (c : N) : expr := Ex (AStr [SPlain c]) [].
(** t: "x"  f: 1.5  b: true  n: 7  i: <"b">  o: {u: ["x" "y"] v: (1.5 - 2 true)}  p: o.u + o.u      and others in their place *)
Definition one' (c : N) (w b : str) : list (str * expr) :=
  [ (lit "t", tx c); (lit "f", N_ w); (lit "b", Ex (AVar false b) []); (lit "n", N_ (lit "7")); (lit "i", inc_obj 98);
    (lit "o", Ex (AObj [(lit "u", Ex (AArr [tx c; tx 121]) []); (lit "v", Ex (ATup [Ex (ANum w) [(BMinus, ANum (lit "2"))]; Ex (AVar false b) []]) [])]) []);
    (lit "p", Ex (ADot false (lit "o") (AVar false (lit "u"))) [(BPlus, ADot false (lit "o") (AVar false (lit "u")))]) ].
Lemma one_two : other_items false (one' 120 (lit "1.5") (lit "true")) (one' 65 (lit "12.") (lit "false")).
Proof.
  unfold one', N_, tx, inc_obj. repeat match goal with
  | |- (_ = BDiv -> _) => discriminate
  | |- includes_path _ _ _ => eapply ip_short; reflexivity
  | |- other_items _ _ _ => constructor | |- other_expr _ _ _ => constructor | |- other_ops _ _ _ => constructor | |- other_list _ _ _ => constructor
  | |- other_atom _ (ANum ?w) (ANum ?w) => apply other_num
  | |- other_atom _ (ANum _) _ => eapply other_frac; reflexivity
  | |- other_atom _ (AStr _) _ => eapply other_text; reflexivity
  | |- other_atom _ (AVar _ ?n) (AVar _ ?n) => apply other_var
  | |- other_atom _ (AVar _ _) _ => eapply other_truth; reflexivity
  | |- other_atom _ (AInc _ _) _ => eapply other_inc
  | |- other_atom _ _ _ => constructor
  end.
Qed.
Example C80_ex : exists o o', g_ok g0 /\ r_doc (one' 120 (lit "1.5") (lit "true")) (show_items (one' 120 (lit "1.5") (lit "true"))) /\
  r_doc (one' 65 (lit "12.") (lit "false")) (show_items (one' 65 (lit "12.") (lit "false"))) /\
  from_str proj g0 (show_items (one' 120 (lit "1.5") (lit "true"))) = Some (OOk o) /\ from_str proj g0 (show_items (one' 65 (lit "12.") (lit "false"))) = Some (OOk o') /\
  obj_eqb o o' = false /\ same_structure o o' /\ obj_len o = 7 /\
  follow (VObj o) [ByField (lit "o"); ByField (lit "v"); ByIndex 0] = Some (VFrac (-1 # 2)) /\
  follow (VObj o') [ByField (lit "o"); ByField (lit "v"); ByIndex 0] = Some (VFrac 10).
Proof.
  eexists. eexists. split; [exact g0_ok|]. split; [apply show_doc; reflexivity|]. split; [apply show_doc; reflexivity|]. split; [vm_compute; reflexivity|]. split; [vm_compute; reflexivity|].
  split; [reflexivity|]. split; [reflexivity|]. split; [reflexivity|]. split; reflexivity.
Qed.
(** A project in which the text file d and the Arr file c are edited. *)
Definition in_c' : list expr := [inc_as (lit "Str") 100; Ex (AStr [SPlain 121; SEsc 110]) []].
Definition edited : fsys :=
  mkfs (fun p => match p with [97] => Some 0%nat | [98] => Some 1%nat | [99] => Some 2%nat | [100] => Some 3%nat | _ => None end)
    [ mkfe (Some (lit "/a")) (inl (show_items in_a)); mkfe (Some (lit "/b")) (inl (show_items in_b));
      mkfe (Some (lit "/c")) (inl (show_list in_c')); mkfe (Some (lit "/d")) (inl (lit "other text")) ] (fun _ => lit "no such file").
Definition edited_ar : archive := fun full =>
  if str_eqb full (lit "/a") then Some (CObj in_a) else if str_eqb full (lit "/b") then Some (CObj in_b)
  else if str_eqb full (lit "/c") then Some (CArr in_c') else if str_eqb full (lit "/d") then Some (CStr (lit "other text")) else None.
Lemma edited_canon p : canon edited p = canon proj p.
Proof.
  unfold canon, fs_entry. destruct (path_parent p); [|reflexivity]. cbn [fs_resolve edited proj].
  destruct p as [|c [|d r]]; try reflexivity; [|destruct c as [|q]; [reflexivity|]; repeat (destruct q; try reflexivity)].
  destruct c as [|q]; [reflexivity|]. repeat (destruct q as [q|q|]; try reflexivity).
Qed.
Lemma edited_describes : describes edited edited_ar.
Proof.
  intros path full c H Ha. rewrite edited_canon in H. apply proj_paths in H. destruct H as [[-> ->]|[[-> ->]|[[-> ->]|[-> ->]]]]; vm_compute in Ha; injection Ha as <-.
  - exists (show_items in_a). split; [eexists _, _; repeat split; discriminate|]. apply show_doc. reflexivity.
  - exists (show_items in_b). split; [eexists _, _; repeat split; discriminate|]. apply show_doc. reflexivity.
  - exists (show_list in_c'). split; [eexists _, _; repeat split; discriminate|]. exists [], (show_list in_c'), []. rewrite app_nil_r. split; [reflexivity|]. split; [constructor|]. split; [|left; reflexivity].
    apply show_elems; [|reflexivity]. apply Forall_forall. intros e _. apply show_ok.
  - exists (lit "other text"). split; [eexists _, _; repeat split; discriminate|]. reflexivity.
Qed.
Ltac other := repeat match goal with
  | |- (_ = BDiv -> _) => discriminate
  | |- includes_path _ _ _ => first [eapply ip_short; reflexivity | eapply ip_long; reflexivity]
  | |- other_items _ _ _ => constructor | |- other_expr _ _ _ => constructor | |- other_ops _ _ _ => constructor | |- other_list _ _ _ => constructor
  | |- other_atom _ (ANum ?w) (ANum ?w) => apply other_num
  | |- other_atom _ (ANum _) _ => eapply other_frac; reflexivity
  | |- other_atom _ (AStr _) _ => eapply other_text; reflexivity
  | |- other_atom _ (AInc _ _) _ => eapply other_inc
  end.
Lemma edited_archive : other_archive false proj_ar edited_ar.
Proof.
  intros full. unfold proj_ar, edited_ar. repeat (destruct (str_eqb _ _); [constructor|]); try exact I; unfold in_a, in_b, in_c, in_c', inc_as, inc_obj; other.
Qed.
Definition top (w : str) : list (str * expr) := in_a ++ [(lit "s", N_ w)].
Example C80_project_ex : exists o o', coherent proj /\ describes proj proj_ar /\ describes edited edited_ar /\ (forall p, canon edited p = canon proj p) /\
  other_archive false proj_ar edited_ar /\ g_ok g0 /\ r_doc (top (lit "1.5")) (show_items (top (lit "1.5"))) /\ r_doc (top (lit ".1")) (show_items (top (lit ".1"))) /\
  other_items false (top (lit "1.5")) (top (lit ".1")) /\
  from_str proj g0 (show_items (top (lit "1.5"))) = Some (OOk o) /\ from_str edited g0 (show_items (top (lit ".1"))) = Some (OOk o') /\
  respects proj_ar (sh_log (snd (parse_obj_str proj g0 (show_items (top (lit "1.5")))))) /\
  follow (VObj o) [ByField (lit "x"); ByField (lit "u"); ByIndex 0] = Some (VStr (lit "{not over")) /\
  follow (VObj o') [ByField (lit "x"); ByField (lit "u"); ByIndex 0] = Some (VStr (lit "other text")) /\ same_shape o o'.
Proof.
  eexists. eexists. split; [exact PropReplace.proj_coherent|]. split; [exact PropReplace.proj_describes|]. split; [exact edited_describes|]. split; [exact edited_canon|].
  split; [exact edited_archive|]. split; [exact g0_ok|]. split; [apply show_doc; reflexivity|]. split; [apply show_doc; reflexivity|].
  split; [unfold top, in_a, inc_as, inc_obj, N_; cbn [app]; other|]. split; [vm_compute; reflexivity|]. split; [vm_compute; reflexivity|].
  split; [|split; [reflexivity|]; split; reflexivity].
  apply respects_b. vm_compute. reflexivity.
Qed.
(** With divisions, one may load and the other not. *)
Theorem C80_division_refuted : exists w w' o e, other_items true [(lit "a", Ex (ANum (lit "1")) [(BDiv, ANum w)])] [(lit "a", Ex (ANum (lit "1")) [(BDiv, ANum w')])] /\
  from_str proj g0 (show_items [(lit "a", Ex (ANum (lit "1")) [(BDiv, ANum w)])]) = Some (OOk o) /\
  from_str proj g0 (show_items [(lit "a", Ex (ANum (lit "1")) [(BDiv, ANum w')])]) = Some (OErr e).
Proof.
  exists (lit "0.5"), (lit "0.0"). eexists. eexists. split; [|split; vm_compute; reflexivity].
  repeat (constructor; auto). eapply other_frac; reflexivity.
Qed.
(** Another Int may change the structure: it may be an index. *)
Theorem C80_int_refuted : exists n n' o o', let d n := [(lit "n", Ex (ANum n) []); (lit "t", Ex (ATup [tx 120; Ex (ANum (lit "1")) []]) []); (lit "x", Ex (ADot false (lit "t") (AVar false (lit "n"))) [])] in
  from_str proj g0 (show_items (d n)) = Some (OOk o) /\ from_str proj g0 (show_items (d n')) = Some (OOk o') /\
  option_map get_type (obj_get o (lit "x")) = Some TStr /\ option_map get_type (obj_get o' (lit "x")) = Some TInt.
Proof. exists (lit "0"), (lit "1"). eexists. eexists. split; [vm_compute; reflexivity|]. split; [vm_compute; reflexivity|]. split; reflexivity. Qed.
End Ex.
