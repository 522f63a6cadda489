(** * ReorgProofs: the two projects of Reorg.v do the same. *)
From Verif Require Export Reorg AfreshProofs AfreshConv.
From Verif Require PropMove.
From Verif Require Import PropNames.
From Verif Require Export Relate.
Open Scope N_scope.

Lemma global_no_word n : global_name n = true -> is_word n = false.
Proof.
  intros G. unfold is_word. destruct n as [|c n]; [discriminate|]. cbn [global_name] in G. apply N.eqb_eq in G. subst c.
  destruct (assoc _ constants) eqn:E1; [apply assoc_in in E1; cbn in E1; repeat (destruct E1 as [E1|E1]; [discriminate|]); destruct E1|].
  destruct (assoc _ keywords) eqn:E2; [apply assoc_in in E2; cbn in E2; repeat (destruct E2 as [E2|E2]; [discriminate|]); destruct E2|]. reflexivity.
Qed.
Lemma outer_in n l : In n l -> is_word n = false -> outer l = [] -> False.
Proof. intros I W E. assert (X : In n (outer l)) by (apply filter_In; rewrite W; auto). rewrite E in X. destruct X. Qed.

(** ** Contents and literals *)
Definition body (inc : inc_ty -> str -> ES value) (lim : N -> bool) (d : N) (fields : list pair_t) (c : contents) : ES value :=
  match c with
  | CStr t => eret (VStr t)
  | CObj its => do r <- ev_items (ev_expr inc lim d) its [] None;; do i <- fresh;; eret (VObj (MkObj i (fst r) (snd r)))
  | CArr es => do vs <- emap (ev_expr inc lim d fields) es;;
      match lub (map get_type vs) with Some t => do i <- fresh;; eret (VArr (MkArr i t vs)) | None => efail end
  | CTup es => do vs <- emap (ev_expr inc lim d fields) es;; do i <- fresh;; eret (VTup (MkTup i (map get_type vs) vs))
  end.
Lemma body_contents inc c x : ev_contents inc c x = body inc limit64 1 [] c x.
Proof.
  destruct c as [t|its|es|es]; cbn [ev_contents body]; [reflexivity| | |].
  - unfold ev_doc, ebind. destruct (ev_items _ its [] None x) as [[r y]|]; [|reflexivity]. destruct (fresh y) as [[i z]|]; reflexivity.
  - unfold ev_arr_doc, ebind. destruct (emap _ es x) as [[r y]|]; [|reflexivity]. destruct (lub _); [|reflexivity]. destruct (fresh y) as [[i z]|]; reflexivity.
  - unfold ev_tup_doc, ebind. destruct (emap _ es x) as [[r y]|]; [|reflexivity]. destruct (fresh y) as [[i z]|]; reflexivity.
Qed.
Lemma body_literal inc lim d fields a c x : literal a c ->
  ev_atom inc lim d fields a x = (if kind_eqb (kind_in c) IStr then body inc lim (d + 1) fields c else deep lim (d + 1) (body inc lim (d + 1) fields c)) x.
Proof.
  intros [its|es|es|cs t H]; cbn [kind_in kind_eqb body]; [apply (f_equal (fun m => m x)); apply ev_obj|apply (f_equal (fun m => m x)); apply ev_arr|apply (f_equal (fun m => m x)); apply ev_tup|].
  change (elift (option_map VStr (str_value cs)) x = Some (VStr t, x)). rewrite H. reflexivity.
Qed.
Lemma body_shallow inc c x : nest_contents c <= 63 -> body inc limit64 1 [] c x = body inc no_limit 1 [] c x.
Proof.
  assert (Ls : forall es, top (map nest_expr es) <= 63 -> emap (ev_expr inc limit64 1 []) es x = emap (ev_expr inc no_limit 1 []) es x).
  { intros es H. apply emap_same. apply Forall_forall. intros e Ie y. apply (proj2 (shallow inc)). right.
    assert (nest_expr e <= top (map nest_expr es)) by (apply top_in, in_map, Ie). lia. }
  destruct c as [t|its|es|es]; cbn [nest_contents]; intros H.
  - reflexivity.
  - cbn [body]. unfold ebind. rewrite (items_same _ (ev_expr inc no_limit 1)); auto. apply Forall_forall. intros p Hp fields y. apply (proj2 (shallow inc)). right.
    assert (nest_expr (snd p) <= nest_doc its); [|lia]. apply top_in. apply (in_map (fun p : str * expr => nest_expr (snd p)) its p Hp).
  - cbn [body]. unfold ebind at 1 3. rewrite (Ls es H). reflexivity.
  - cbn [body]. unfold ebind at 1 3. rewrite (Ls es H). reflexivity.
Qed.
Definition reads_in (c : contents) : list str :=
  match c with CStr _ => [] | CObj its => filter global_name (flat_map (fun p => match p with (f, e) => reads e end) its) | CArr es | CTup es => flat_map reads es end.
Definition defines_in (c : contents) : list str :=
  match c with CStr _ => [] | CObj its => flat_map (fun p => match p with (f, e) => (if global_name f then [f] else []) ++ defines e end) its
  | CArr es | CTup es => flat_map defines es end.
Lemma literal_names a c : literal a c -> reads_atom a = reads_in c /\ defines_atom a = defines_in c.
Proof. intros []; split; reflexivity. Qed.

(** ** Includes by a path *)
Lemma desc_sentinel k x o y : esentinel k x = Some (o, y) -> g_ok (sh_g (snd x)) -> g_desc (sh_g (snd x)) (sh_g (snd y)).
Proof. intros E G. rewrite esentinel_force in E. injection E as _ <-. cbn [snd sh_g set_g]. apply force_desc, desc_refl, G. Qed.
Lemma keyword_hit' k i ks : In k ks -> forall x, g_ok (sh_g (snd x)) -> g_sent (sh_g (snd x)) k = Some i ->
  exists y, ev_keyword (obj_empty i) ks x = Some (Some k, y) /\ fst y = fst x /\ g_desc (sh_g (snd x)) (sh_g (snd y)).
Proof.
  induction ks as [|k0 ks IH]; intros Ik x G Hk; [destruct Ik|]. cbn [ev_keyword]. destruct (sentinel_some k0 x) as (j & y & S & Sg & Fy).
  unfold ebind. rewrite S. pose proof (desc_sentinel _ _ _ _ S G) as Q. pose proof (PropMove.sent_keeps _ _ _ _ _ _ S Hk) as Hk'.
  pose proof (proj1 (proj2 Q)) as G'. change (obj_id (obj_empty i)) with i. change (obj_id (obj_empty j)) with j.
  destruct (N.eqb_spec i j) as [<-|Ne].
  - assert (k = k0) as -> by (eapply (proj1 (proj2 G')); eauto). exists y. auto.
  - destruct Ik as [->|Ik]; [congruence|]. destruct (IH Ik y G' Hk') as (z & Ez & Fz & Qz). exists z. split; [exact Ez|]. split; [congruence|].
    exact (desc_trans _ _ _ Q Qz).
Qed.
Lemma path_runs inc lim d k e p fields x : includes_path k e p -> g_ok (sh_g (snd x)) ->
  exists y, fst y = fst x /\ g_desc (sh_g (snd x)) (sh_g (snd y)) /\ ev_atom inc lim d fields e x = if lim (d + 1) then inc k p y else None.
Proof.
  assert (Str : forall cs q z, str_value cs = Some q -> ev_expr inc lim (d + 1) fields (Ex (AStr cs) []) z = Some (VStr q, z)).
  { intros cs q z Hs. rewrite ev_atom_expr. change (elift (option_map VStr (str_value cs)) z = Some (VStr q, z)). rewrite Hs. reflexivity. }
  intros Ip G. assert (G0 := desc_refl _ G).
  destruct (lim (d + 1)) eqn:Hl; [|exists x; split; [reflexivity|]; split; [exact G0|]; destruct Ip; rewrite ev_inc; unfold deep; rewrite Hl; reflexivity].
  destruct Ip as [cs q Hs|k' kw cs q K Hs]; rewrite ev_inc; unfold deep; rewrite Hl; cbn iota; unfold ebind at 1.
  - rewrite (Str _ _ _ Hs). exists x. split; [reflexivity|]. split; [exact G0|]. reflexivity.
  - rewrite (ev_kw _ _ _ _ kw k' _ K). unfold ebind at 1. destruct (sentinel_some k' x) as (i & y & S & Sg & Fy). rewrite S. unfold eret at 1.
    pose proof (desc_sentinel _ _ _ _ S G) as Q. destruct (keyword_hit' k' i [IObj; IStr; IArr; ITup]) with (x := y) as (z & Ez & Fz & Qz); [destruct k'; cbn; auto|apply Q|exact Sg|].
    exists z. split; [congruence|]. split; [exact (desc_trans _ _ _ Q Qz)|].
    unfold ebind at 1. rewrite Ez. unfold ebind. rewrite (Str _ _ _ Hs). reflexivity.
Qed.
Lemma path_names k e p : includes_path k e p -> defines_atom e = [].
Proof. intros []; reflexivity. Qed.

Scheme re_atom_min := Minimality for re_atom Sort Prop
  with re_expr_min := Minimality for re_expr Sort Prop
  with re_ops_min := Minimality for re_ops Sort Prop
  with re_list_min := Minimality for re_list Sort Prop
  with re_items_min := Minimality for re_items Sort Prop
  with re_contents_min := Minimality for re_contents Sort Prop.
Combined Scheme re_min from re_atom_min, re_expr_min, re_ops_min, re_list_min, re_items_min, re_contents_min.

Lemma Forall2_impl {A B} (P Q : A -> B -> Prop) l l' : (forall a b, P a b -> Q a b) -> Forall2 P l l' -> Forall2 Q l l'.
Proof. intros H. induction 1; constructor; auto. Qed.
Section Two.
Context `{U : Unicode}.
Variables (fs fs' : fsys) (ar ar' : archive) (twin : str -> str -> Prop) (deeper : bool).
Notation ra := (re_atom fs fs' ar ar' twin deeper).
Notation re := (re_expr fs fs' ar ar' twin deeper).
Notation rc := (re_contents fs fs' ar ar' twin deeper).

(** ** The same globals are defined *)
Lemma re_defines :
  (forall f f' a a', ra f f' a a' -> defines_atom a = defines_atom a') /\
  (forall f f' e e', re f f' e e' -> defines e = defines e') /\
  (forall f f' l l', re_ops fs fs' ar ar' twin deeper f f' l l' ->
     flat_map (fun p : binop * atom => match p with (op, b) => defines_atom b end) l = flat_map (fun p : binop * atom => match p with (op, b) => defines_atom b end) l') /\
  (forall f f' l l', re_list fs fs' ar ar' twin deeper f f' l l' -> flat_map defines l = flat_map defines l') /\
  (forall f f' l l', re_items fs fs' ar ar' twin deeper f f' l l' -> defines_in (CObj l) = defines_in (CObj l')) /\
  (forall f f' c c', rc f f' c c' -> defines_in c = defines_in c').
Proof.
  apply re_min; intros; cbn [defines_atom defines defines_in flat_map] in *; try congruence.
  - rewrite (path_names _ _ _ H), (path_names _ _ _ H0). reflexivity.
  - rewrite (path_names _ _ _ H1). apply H0.
  - rewrite (path_names _ _ _ H3). destruct (literal_names _ _ H0) as [_ X], (literal_names _ _ H1) as [_ Y], H2 as [_ Z]. congruence.
Qed.
Lemma re_kind f f' c c' : rc f f' c c' -> kind_in c = kind_in c'.
Proof. intros []; reflexivity. Qed.

Notation L n f := (afresh fs ar n f).
Notation R f := (afresh fs' ar' (S (files fs')) f).
Definition lim' : N -> bool := if deeper then no_limit else limit64.
Definition ge (d d' : N) : Prop := deeper = true \/ d' <= d.
Notation rl S D A B W Q m m' := (rel S D 0 (fun _ : wd => nothing) anysh A B [] W Q m m').
Lemma ge_succ d d' : ge d d' -> ge (d + 1) (d' + 1).
Proof. unfold ge. intros [H|H]; [auto|right; lia]. Qed.
Lemma ge_lim d d' : ge d d' -> limit64 d = true -> lim' d' = true.
Proof. unfold ge, lim', limit64. intros [->|H] E; [reflexivity|]. destruct deeper; [reflexivity|]. apply N.leb_le in E. apply N.leb_le. lia. Qed.
Lemma rel_deep' S D A B W (T : Type) (Q : wd -> T -> T -> Prop) d d' m m' : ge d d' -> rl S D A B W Q m m' ->
  rl S D A B W Q (deep limit64 d m) (deep lim' d' m').
Proof. intros Hg H. unfold deep. destruct (limit64 d) eqn:E; [|apply rel_fail]. rewrite (ge_lim d d' Hg E). exact H. Qed.
Lemma rel_list2 S D A B {T T1 T2} (Q : wd -> T -> T -> Prop) (f : T1 -> ES T) (f' : T2 -> ES T) l l' :
  (forall W W' a b, incl W W' -> Q W a b -> Q W' a b) -> forall W,
  Forall2 (fun a a' => forall W', incl W W' -> rl S D A B W' Q (f a) (f' a')) l l' ->
  rl S D A B W (fun W => Forall2 (Q W)) (emap f l) (emap f' l').
Proof.
  intros Mono. revert l'. induction l as [|a l IH]; intros l' W H; inversion H; subst; cbn [emap]; [apply rel_ret; constructor|].
  eapply rel_bind; [match goal with H : forall W', _ |- _ => apply H end; apply incl_refl|]. intros W1 b b' I1 Qb. eapply rel_bind.
  - apply IH. eapply Forall2_impl; [|match goal with H : Forall2 _ l _ |- _ => exact H end]. cbn beta. intros q q' Hq W' I'. apply Hq. eapply incl_tran; eauto.
  - intros W2 bs bs' I2 Qs. apply rel_ret. constructor; auto. eapply Mono; eauto.
Qed.
Lemma zip (P : str * expr -> str * expr -> Prop) l l' : Forall2 (fun p q => fst p = fst q /\ P p q) l l' ->
  exists z, map left z = l /\ map right z = l' /\ Forall (fun p => P (left p) (right p)) z.
Proof.
  induction 1 as [|[f e] [f' e'] l l' [E H] _ (z & <- & <- & F)]; [exists []; repeat split; constructor|]. cbn [fst] in E. subst f'.
  exists ((f, (e, e')) :: z). split; [reflexivity|]. split; [reflexivity|]. constructor; auto.
Qed.
Lemma inv_step S D A B W W' x y x' y' : inv S D 0 (fun _ => nothing) anysh A B [] W x y -> incl W W' ->
  (forall n, assoc n (fst x') = assoc n (fst x)) -> (forall n, assoc n (fst y') = assoc n (fst y)) ->
  g_desc (sh_g (snd x)) (sh_g (snd x')) -> g_desc (sh_g (snd y)) (sh_g (snd y')) -> ids 0 W' (sh_g (snd x')) (sh_g (snd y')) ->
  inv S D 0 (fun _ => nothing) anysh A B [] W' x' y'.
Proof.
  intros (F1 & F2 & (F3 & P1 & P2) & (F4 & P3 & P4) & [G Hv] & F6) I Ex Ey Dx Dy G'.
  split; [intros n v Sn X; rewrite Ex in X; destruct (F1 n v Sn X) as (w & Y & C); exists w; rewrite Ey; split; [exact Y|eapply History.corr_mono; eauto]|].
  split; [intros n Dn X; rewrite Ey; rewrite Ex in X; auto|].
  split; [split; [intros n w X; rewrite Ex; auto|split; [exact (desc_trans _ _ _ P1 Dx)|exact Logic.I]]|].
  split; [split; [intros n w X; rewrite Ey; auto|split; [exact (desc_trans _ _ _ P3 Dy)|exact Logic.I]]|].
  split; [split; [exact G'|exact Logic.I]|]. intros q [].
Qed.
Lemma inv_ids S D A B W x y : inv S D 0 (fun _ => nothing) anysh A B [] W x y -> ids 0 W (sh_g (snd x)) (sh_g (snd y)).
Proof. intros (_ & _ & _ & _ & [G _] & _). exact G. Qed.

(** ** Includes of twins *)
Definition goes (m m' : ES value) : Prop := forall W gl gl' h h' v x, ids 0 W (sh_g h) (sh_g h') -> m (gl, h) = Some (v, x) ->
  fst x = gl /\ exists v' h1 W', m' (gl', h') = Some (v', (gl', h1)) /\ incl W W' /\ moves nothing h h' W' v v' (snd x) h1.
Definition good (n : nat) : Prop := forall m f f' k p p' full full', (m <= n)%nat ->
  canon fs (target f p) = Some full -> canon fs' (target f' p') = Some full' -> twin full full' -> goes (L m f k p) (R f' k p').
Lemma goes_rel S D A B W m m' : goes m m' -> rl S D A B W co m m'.
Proof.
  intros Go [gl h] [gl' h'] v x F E. pose proof (inv_ids _ _ _ _ _ _ _ F) as G. cbn [snd] in G.
  destruct (Go W gl gl' h h' v x G E) as (Eg & v' & h1 & W' & E' & I & C & G' & _ & D1 & D2).
  exists v', (gl', h1), W'. split; [exact E'|]. split; [exact I|]. split; [exact C|]. eapply inv_step; eauto; cbn [fst]; intros; congruence.
Qed.
Lemma around_rel S D A B W n f f' k p : good n -> around fs fs' twin f f' -> rl S D A B W co (L n f k p) (R f' k p).
Proof.
  intros Gd Ar. destruct (canon fs (target f p)) as [full|] eqn:Ef.
  - destruct (Ar p full Ef) as (full' & Ef' & Tw). apply goes_rel. eapply Gd; eauto.
  - intros x y v x' _ E. destruct n; cbn [afresh] in E; [discriminate|]. rewrite Ef in E. discriminate.
Qed.
Lemma path_rel S D A B W n f f' k e e' p p' full full' d d' fields fields' : good n -> includes_path k e p -> includes_path k e' p' ->
  canon fs (target f p) = Some full -> canon fs' (target f' p') = Some full' -> twin full full' -> ge d d' ->
  rl S D A B W co (ev_atom (L n f) limit64 d fields e) (ev_atom (R f') lim' d' fields' e').
Proof.
  intros Gd Ip Ip' Ef Ef' Tw Hg x y v x' F E. pose proof (inv_ids _ _ _ _ _ _ _ F) as G.
  destruct (path_runs (L n f) limit64 d k e p fields x Ip ltac:(apply G)) as (x1 & Fx & Dx & Rx). rewrite Rx in E.
  destruct (path_runs (R f') lim' d' k e' p' fields' y Ip' ltac:(apply G)) as (y1 & Fy & Dy & Ry).
  destruct (limit64 (d + 1)) eqn:Hl; [|discriminate]. rewrite (ge_lim _ _ (ge_succ _ _ Hg) Hl) in Ry.
  assert (F' : inv S D 0 (fun _ => nothing) anysh A B [] W x1 y1).
  { eapply inv_step; [exact F|apply incl_refl| | |exact Dx|exact Dy|eapply ids_later; eauto]; intros; congruence. }
  destruct (goes_rel S D A B W _ _ (Gd n f f' k p p' full full' (le_n _) Ef Ef' Tw) x1 y1 v x' F' E) as (v' & y' & W' & E' & K). exists v', y', W'. rewrite Ry. auto.
Qed.
Lemma rel_name' (S D : str -> Prop) A B W fields fields' (g : bool) (n : str) : Relate.finds 0 W (fun k => k = key g n /\ is_word k = false) fields fields' ->
  (g = true -> S (c_at :: n)) -> rl S D A B W co (ev_name fields g n) (ev_name fields' g n).
Proof.
  intros Hf Hs. unfold ev_name. destruct g.
  - intros x y a x' F E. unfold ebind, eglobals in *. apply elift_some in E as [E ->]. pose proof (proj1 F) as F1.
    destruct (F1 _ _ (Hs eq_refl) E) as (w & X & Q). rewrite X. exists w, y, W. split; [reflexivity|]. split; [apply incl_refl|]. auto.
  - destruct (assoc n constants) eqn:Ec; [apply rel_ret; apply scalar_corr; eapply const_scalar; eauto|]. destruct (assoc n keywords) eqn:Ek.
    + eapply rel_bind; [apply rel_sent; intros; auto; exact I|]. intros W' o p I Q. apply rel_ret. exact Q.
    + apply rel_lift. intros a X. apply (Hf n a); [|exact X]. split; [reflexivity|]. unfold is_word. rewrite Ec, Ek. reflexivity.
Qed.

(** ** The induction *)
Notation PA := (fun (f f' : option str) (a a' : atom) => forall n, good n -> forall (S D : str -> Prop) A B W d d' fields fields', ge d d' ->
  (forall k, In k (reads_atom a) -> global_name k = true -> S k) -> (forall k, In k (defines_atom a) -> D k) ->
  Relate.finds 0 W (fun k => In k (reads_atom a) /\ is_word k = false) fields fields' ->
  rl S D A B W co (ev_atom (L n f) limit64 d fields a) (ev_atom (R f') lim' d' fields' a')).
Notation PE := (fun (f f' : option str) (e e' : expr) => forall n, good n -> forall (S D : str -> Prop) A B W d d' fields fields', ge d d' ->
  (forall k, In k (reads e) -> global_name k = true -> S k) -> (forall k, In k (defines e) -> D k) ->
  Relate.finds 0 W (fun k => In k (reads e) /\ is_word k = false) fields fields' ->
  rl S D A B W co (ev_expr (L n f) limit64 d fields e) (ev_expr (R f') lim' d' fields' e')).
Notation PO := (fun (f f' : option str) => Forall2 (fun p q : binop * atom => fst p = fst q /\ PA f f' (snd p) (snd q))).
Notation PL := (fun (f f' : option str) => Forall2 (PE f f')).
Notation PI := (fun (f f' : option str) => Forall2 (fun p q : str * expr => fst p = fst q /\ PE f f' (snd p) (snd q))).
Definition PC (f f' : option str) (c c' : contents) : Prop := forall n, good n -> forall (S D : str -> Prop) A B W d d' fields fields', ge d d' ->
  (forall k, In k (reads_in c) -> global_name k = true -> S k) -> (forall k, In k (defines_in c) -> D k) ->
  Relate.finds 0 W (fun k => In k (reads_in c) /\ is_word k = false) fields fields' ->
  rl S D A B W co (body (L n f) limit64 d fields c) (body (R f') lim' d' fields' c').
Lemma rel_fresh' S D A B W : rl S D A B W (fun W i j => In (i, j) W /\ 0 <= i /\ 0 <= j) fresh fresh.
Proof. apply rel_fresh; auto. Qed.
Lemma list_case f f' es es' n (S D : str -> Prop) A B W d d' fields fields' : PL f f' es es' -> good n -> ge d d' ->
  (forall k, In k (flat_map reads es) -> global_name k = true -> S k) -> (forall k, In k (flat_map defines es) -> D k) ->
  Relate.finds 0 W (fun k => In k (flat_map reads es) /\ is_word k = false) fields fields' ->
  rl S D A B W (fun W => Forall2 (co W)) (emap (ev_expr (L n f) limit64 d fields) es) (emap (ev_expr (R f') lim' d' fields') es').
Proof.
  intros H Gd Hg HS HD Hf. apply rel_list2; [intros W1 W2 a b I; apply History.corr_mono; exact I|]. clear - H Gd Hg HS HD Hf.
  induction H as [|e e' es es' He _ IH]; constructor.
  - intros W' I. apply He; auto.
    + intros k X. apply HS. apply in_or_app. auto.
    + intros k X. apply HD. apply in_or_app. auto.
    + apply (finds_mono 0 W); [exact I|]. eapply finds_weaken; [|exact Hf]. cbn [flat_map]. intros k [X Y]. split; [apply in_or_app; auto|exact Y].
  - apply IH.
    + intros k X. apply HS. apply in_or_app. auto.
    + intros k X. apply HD. apply in_or_app. auto.
    + eapply finds_weaken; [|exact Hf]. cbn [flat_map]. intros k [X Y]. split; [apply in_or_app; auto|exact Y].
Qed.
Lemma arr_case f f' es es' : PL f f' es es' -> PC f f' (CArr es) (CArr es').
Proof.
  intros H n Gd S D A B W d d' fields fields' Hg HS HD Hf. cbn [body reads_in defines_in] in *. eapply rel_bind; [apply list_case; eauto|].
  intros W1 vs ws I1 E. rewrite <- (History.corr_types _ _ _ _ _ E). destruct (lub _); [|apply rel_fail]. eapply rel_bind; [apply rel_fresh'|].
  intros W2 i j I2 (Hin & L1 & L2). apply rel_ret. constructor; auto. eapply History.corr_list_mono; eauto.
Qed.
Lemma tup_case f f' es es' : PL f f' es es' -> PC f f' (CTup es) (CTup es').
Proof.
  intros H n Gd S D A B W d d' fields fields' Hg HS HD Hf. cbn [body reads_in defines_in] in *. eapply rel_bind; [apply list_case; eauto|].
  intros W1 vs ws I1 E. rewrite <- (History.corr_types _ _ _ _ _ E). eapply rel_bind; [apply rel_fresh'|].
  intros W2 i j I2 (Hin & L1 & L2). apply rel_ret. constructor; auto. eapply History.corr_list_mono; eauto.
Qed.
Lemma obj_case f f' its its' : PI f f' its its' -> PC f f' (CObj its) (CObj its').
Proof.
  intros H n Gd S D A B W d d' fields fields' Hg HS HD _. cbn [body reads_in defines_in] in *.
  destruct (zip (fun p q => PE f f' (snd p) (snd q)) its its' H) as (z & <- & <- & Fz). clear H. eapply rel_bind.
  { apply rel_items with (F := fun _ => True) (J := fun _ _ => True); auto.
    - intros g X G. apply HD. apply in_map_iff in X as ([g' [e e']] & <- & X). apply in_flat_map. exists (g', e). split; [apply (in_map left _ _ X)|].
      cbn [fst] in G. rewrite G. left. reflexivity.
    - rewrite Forall_forall in *. intros [g [e e']] X W' fl fl' I Hl _. cbn [fst snd]. apply (Fz _ X); auto.
      + intros k Y G. apply HS; auto. apply filter_In. split; auto. apply in_flat_map. exists (g, e). split; [apply (in_map left _ _ X)|exact Y].
      + intros k Y. apply HD. apply in_flat_map. exists (g, e). split; [apply (in_map left _ _ X)|]. apply in_or_app. right. exact Y.
      + eapply finds_weaken; [|exact Hl]. intros k _. exact Logic.I.
    - intros k v _ X. discriminate.
    - exact I. }
  intros W1 [ps par] [ps' par'] I1 (new & new' & E1 & E2 & E3 & E4). cbn [fst snd app] in *. subst new new'.
  eapply rel_bind; [apply rel_fresh'|]. intros W2 i j I2 (Hin & L1 & L2). apply rel_ret. apply (History.corr_pairs_mono _ _ _ _ _ _ I2) in E3.
  apply (co_opt_mono 0 _ _ _ _ I2) in E4. constructor. destruct par, par'; try contradiction; constructor; auto.
Qed.

Hypothesis Coh' : coherent fs'.
Hypothesis Deep : not_too_deep ar' deeper.
(** Moved out: the file is evaluated for itself. *)
Lemma right_file f' p full' c' h v y : canon fs' (target f' p) = Some full' -> ar' full' = Some c' -> g_ok (sh_g h) ->
  body (R (Some (target f' p))) lim' 1 [] c' ([], h) = Some (v, y) -> forall gl, R f' (kind_in c') p (gl, h) = Some (v, (gl, snd y)).
Proof.
  intros Ef Ea G E gl.
  assert (E1 : body (R (Some (target f' p))) limit64 1 [] c' ([], h) = Some (v, y)).
  { unfold lim' in E. destruct deeper eqn:Dp; [|exact E]. rewrite body_shallow; [exact E|]. eapply Deep; eauto. }
  rewrite <- body_contents in E1. apply (files_suffice fs' ar' Coh' _ _ _ _ _ _ Ef Ea G) in E1.
  cbn [afresh]. rewrite Ef, Ea, (proj2 (kind_eqb_eq _ _) eq_refl). unfold apart. cbn [fst snd]. rewrite E1. reflexivity.
Qed.
Lemma inv_apart A B W x y : g_desc (sh_g (snd A)) (sh_g (snd x)) -> g_desc (sh_g (snd B)) (sh_g (snd y)) -> fst A = fst x -> fst B = fst y ->
  ids 0 W (sh_g (snd x)) (sh_g (snd y)) -> inv (fun _ => False) (fun _ => False) 0 (fun _ => nothing) anysh A B [] W x y.
Proof.
  intros D1 D2 E1 E2 G. split; [intros n v []|]. split; [intros n []|]. split; [split; [rewrite E1; auto|split; [exact D1|exact I]]|].
  split; [split; [rewrite E2; auto|split; [exact D2|exact I]]|]. split; [split; [exact G|exact I]|]. intros q [].
Qed.
Lemma afresh_keeps fs0 ar0 n file k p x v y : afresh fs0 ar0 n file k p x = Some (v, y) -> fst y = fst x.
Proof.
  intros E. destruct n; cbn [afresh] in E; [discriminate|]. destruct (canon fs0 (target file p)); [|discriminate]. destruct (ar0 s); [|discriminate].
  destruct (kind_eqb _ _); [|discriminate]. unfold apart in E. destruct (ev_contents _ c ([], snd x)) as [[w z]|]; [|discriminate]. injection E as _ <-. reflexivity.
Qed.
Lemma dot_case f f' g m a a' : PA f f' a a' ->
  (match a, a' with AVar b k, AVar b' k' => b = b' | ADot b k _, ADot b' k' _ => b = b' | AVar _ _, _ | ADot _ _ _, _ => False | _, _ => True end) ->
  PA f f' (ADot g m a) (ADot g m a').
Proof.
  intros IH Sh n Gd S D A B W d d' fields fields' Hg HS HD Hf. cbn [reads_atom defines_atom] in *. rewrite !ev_dot.
  assert (IH' : forall W' fl fl', Relate.finds 0 W' (fun k => In k (reads_atom a) /\ is_word k = false) fl fl' ->
    rl S D A B W' co (ev_atom (L n f) limit64 (d + 1) fl a) (ev_atom (R f') lim' (d' + 1) fl' a')).
  { intros W' fl fl' Hl. apply IH; auto using ge_succ. intros k X. apply HS. right. exact X. }
  assert (Hsub : forall W', incl W W' -> Relate.finds 0 W' (fun k => In k (reads_atom a) /\ is_word k = false) fields fields').
  { intros W' I. eapply finds_mono; [exact I|]. eapply finds_weaken; [|exact Hf]. intros k [X Y]. split; [right; exact X|exact Y]. }
  eapply rel_bind.
  { apply rel_name'; [eapply finds_weaken; [|exact Hf]; intros k [-> Y]; split; [left; reflexivity|exact Y]|]. intros ->. apply HS; [left; reflexivity|reflexivity]. }
  intros W1 v v' I1 Sv.
  assert (Ix : forall vs ws, Forall2 (co W1) vs ws -> rl S D A B W1 co (do q <- ev_atom (L n f) limit64 (d + 1) fields a;; elift (ev_index vs q))
    (do q <- ev_atom (R f') lim' (d' + 1) fields' a';; elift (ev_index ws q))).
  { intros vs ws Hv. eapply rel_bind; [apply IH'; apply Hsub; exact I1|]. intros W2 p q I2 Spq. apply rel_lift. intros w X.
    unfold ev_index in *. destruct Spq; try discriminate. destruct (_ && _); [|discriminate].
    pose proof (History.corr_nth 0 0 W1 vs ws (Z.to_nat z) Hv) as N. rewrite X in N. destruct (nth_error ws (Z.to_nat z)); [|contradiction].
    eexists. split; [reflexivity|]. eapply History.corr_mono; eauto. }
  destruct Sv as [| | | | |i j t vs ws Hin B1 B2 Hv|i j ts vs ws Hin B1 B2 Hv|o p Co]; try apply rel_fail.
  - exact (Ix vs ws Hv).
  - exact (Ix vs ws Hv).
  - assert (Hp : Relate.finds 0 W1 (fun k => In k (reads_atom a) /\ is_word k = false) (obj_pairs o) (obj_pairs p)) by (apply finds_pairs; inversion Co; subst; auto).
    specialize (IH' W1 _ _ Hp). destruct a; try apply rel_fail; destruct a'; try contradiction; subst; destruct glob0; try apply rel_fail; exact IH'.
Qed.
Lemma out_case f f' a c e p full' c' : literal a c -> alone a -> includes_path (kind_in c) e p -> (kind_in c = IStr -> deeper = true) ->
  canon fs' (target f' p) = Some full' -> ar' full' = Some c' -> kind_in c = kind_in c' -> PC f (Some (target f' p)) c c' -> PA f f' a e.
Proof.
  intros Li [Cr Cd] Ip Hs Ef Ea Ek IH n Gd S D A B W d d' fields fields' Hg HS HD Hf x y v x' F E.
  pose proof (inv_ids _ _ _ _ _ _ _ F) as G. pose proof (literal_names _ _ Li) as [Nr Nd].
  assert (Fr : forall k, assoc k (fst x') = assoc k (fst x)).
  { intros k. apply (proj1 (fr_ev (L n f) limit64 (afresh_keeps fs ar n f) (fun _ => False)) a ltac:(intros m X; rewrite Cd in X; destruct X) d fields _ _ _ E k); auto. }
  rewrite (body_literal _ _ _ _ _ _ _ Li) in E.
  assert (E1 : body (L n f) limit64 (d + 1) fields c x = Some (v, x') /\ lim' (d' + 1) = true).
  { destruct (kind_eqb (kind_in c) IStr) eqn:K.
    - apply kind_eqb_eq in K. split; [exact E|]. unfold lim'. rewrite (Hs K). reflexivity.
    - unfold deep in E. destruct (limit64 (d + 1)) eqn:Hl; [|discriminate]. split; [exact E|]. eapply ge_lim; eauto using ge_succ. }
  destruct E1 as [E1 Hl]. clear E.
  destruct (path_runs (R f') lim' d' (kind_in c) e p fields' y Ip ltac:(apply G)) as (y1 & Fy & Dy & Ry). rewrite Hl in Ry.
  assert (Gx : g_ok (sh_g (snd x))) by apply G. assert (Gy1 : g_ok (sh_g (snd y1))) by apply Dy.
  assert (Dx : g_desc (sh_g (snd x)) (sh_g (snd x))) by (apply desc_refl; exact Gx).
  assert (Dy1 : g_desc (sh_g (snd y1)) (sh_g (snd y1))) by (apply desc_refl; exact Gy1).
  destruct (IH n Gd (fun _ => False) (fun _ => False) x ([], snd y1) W (d + 1) 1 fields []) with (x := x) (y := (@nil (str * value), snd y1)) (a := v) (x' := x')
    as (v' & y' & W' & E' & I & C & (_ & _ & (_ & D1 & _) & (_ & D2 & _) & [G' _] & _)); auto.
  - right. lia.
  - intros k X Gk. apply (outer_in k (reads_atom a)); auto; [rewrite Nr; exact X|apply global_no_word; exact Gk].
  - intros k X. rewrite <- Nd, Cd in X. destruct X.
  - intros k w [X Y] _. exfalso. apply (outer_in k (reads_atom a)); auto. rewrite Nr. exact X.
  - apply inv_apart; auto. eapply ids_later; eauto.
  - cbn [snd] in D2. pose proof (right_file _ _ _ _ _ _ _ Ef Ea Gy1 E' (fst y1)) as E2. rewrite <- Ek in E2.
    exists v', (fst y1, snd y'), W'. split; [rewrite Ry; destruct y1; exact E2|]. split; [exact I|]. split; [exact C|].
    eapply inv_step; [exact F|exact I|exact Fr| |exact D1|exact (desc_trans _ _ _ Dy D2)|exact G']. cbn [fst]. intros k. rewrite Fy. reflexivity.
Qed.
Lemma in_case f f' a e p full c a' c' : deeper = true -> literal a c -> literal a' c' -> defines_atom a = [] -> defines_atom a' = [] -> includes_path (kind_in c) e p ->
  canon fs (target f p) = Some full -> ar full = Some c -> PC (Some (target f p)) f' c c' -> PA f f' e a'.
Proof.
  intros Dp Li Li' Cd Cd' Ip Ef Ea IH n Gd S D A B W d d' fields fields' Hg HS HD Hf x y v x' F E.
  pose proof (inv_ids _ _ _ _ _ _ _ F) as G. pose proof (literal_names _ _ Li) as [Nr Nd].
  destruct (path_runs (L n f) limit64 d (kind_in c) e p fields x Ip ltac:(apply G)) as (x1 & Fx & Dx & Rx). rewrite Rx in E. clear Rx.
  destruct (limit64 (d + 1)); [|discriminate]. destruct n as [|n]; cbn [afresh] in E; [discriminate|]. rewrite Ef, Ea, (proj2 (kind_eqb_eq _ _) eq_refl) in E.
  unfold apart in E. destruct (ev_contents (afresh fs ar n (Some (target f p))) c ([], snd x1)) as [[w z]|] eqn:Ec; [|discriminate]. injection E as -> <-. rewrite body_contents in Ec.
  assert (Gx : g_ok (sh_g (snd x1))) by apply Dx. assert (Gy : g_ok (sh_g (snd y))) by apply G.
  assert (Dx1 : g_desc (sh_g (snd x1)) (sh_g (snd x1))) by (apply desc_refl; exact Gx).
  assert (Dy : g_desc (sh_g (snd y)) (sh_g (snd y))) by (apply desc_refl; exact Gy).
  destruct (IH n ltac:(intros m ? ? ? ? ? ? ? Lm; apply Gd; lia) (fun _ => True) (fun _ => False) ([], snd x1) y W 1 (d' + 1) [] fields') with (x := (@nil (str * value), snd x1)) (y := y) (a := v) (x' := z)
    as (v' & y' & W' & E' & I & C & (_ & _ & (_ & D1 & _) & (_ & D2 & _) & [G' _] & _)); auto.
  - left. exact Dp.
  - intros k X. rewrite <- Nd, Cd in X. destruct X.
  - intros k u _ X. discriminate.
  - split; [intros k u _ X; discriminate|]. split; [intros k []|]. split; [split; [auto|split; [exact Dx1|exact Logic.I]]|].
    split; [split; [auto|split; [exact Dy|exact Logic.I]]|]. split; [split; [eapply ids_later; eauto|exact Logic.I]|]. intros q [].
  - assert (E2 : ev_atom (R f') lim' d' fields' a' y = Some (v', y')).
    { rewrite (body_literal _ _ _ _ _ _ _ Li'). unfold lim' in *. rewrite Dp in *. destruct (kind_eqb _ _); [exact E'|]. exact E'. }
    exists v', y', W'. split; [exact E2|]. split; [exact I|]. split; [exact C|].
    cbn [snd] in D1. eapply inv_step; [exact F|exact I| | |exact (desc_trans _ _ _ Dx D1)|exact D2|exact G'].
    + cbn [fst]. intros k. rewrite Fx. reflexivity.
    + intros k. apply (proj1 (fr_ev (R f') lim' (afresh_keeps fs' ar' (Datatypes.S (files fs')) f') (fun _ => False)) a' ltac:(intros m X; rewrite Cd' in X; destruct X) d' fields' _ _ _ E2 k); auto.
Qed.
Lemma lit_deep f f' a a' c c' : literal a c -> literal a' c' -> kind_in c = kind_in c' -> kind_in c <> IStr -> PC f f' c c' -> PA f f' a a'.
Proof.
  intros Li Li' Ek Ns IH n Gd S D A B W d d' fields fields' Hg HS HD Hf. pose proof (literal_names _ _ Li) as [Nr Nd]. rewrite Nr, Nd in *.
  pose proof (rel_deep' S D A B W value co (d + 1) (d' + 1) _ _ (ge_succ _ _ Hg) (IH n Gd S D A B W (d + 1) (d' + 1) fields fields' (ge_succ _ _ Hg) HS HD Hf)) as Rl.
  intros x y v x' F E. rewrite (body_literal _ _ _ _ _ _ _ Li) in E.
  assert (K : kind_eqb (kind_in c) IStr = false) by (destruct (kind_eqb _ _) eqn:K; auto; apply kind_eqb_eq in K; contradiction).
  rewrite K in E. destruct (Rl x y v x' F E) as (v' & y' & W' & E' & Q). exists v', y', W'. rewrite (body_literal _ _ _ _ _ _ _ Li'), <- Ek, K. auto.
Qed.
Lemma re_shape f f' a a' : ra f f' a a' ->
  match a, a' with AVar b k, AVar b' k' => b = b' | ADot b k _, ADot b' k' _ => b = b' | AVar _ _, _ | ADot _ _ _, _ => False | _, _ => True end.
Proof.
  intros H. destruct H; try reflexivity; try exact I.
  - destruct H; destruct H0; exact I.
  - destruct H; exact I.
  - destruct H3; exact I.
Qed.
Theorem re_all :
  (forall f f' a a', ra f f' a a' -> PA f f' a a') /\ (forall f f' e e', re f f' e e' -> PE f f' e e') /\
  (forall f f' l l', re_ops fs fs' ar ar' twin deeper f f' l l' -> PO f f' l l') /\
  (forall f f' l l', re_list fs fs' ar ar' twin deeper f f' l l' -> PL f f' l l') /\
  (forall f f' l l', re_items fs fs' ar ar' twin deeper f f' l l' -> PI f f' l l') /\
  (forall f f' c c', rc f f' c c' -> PC f f' c c').
Proof.
  apply re_min.
  - intros f f' w n Gd S D A B W d d' fields fields' Hg HS HD Hf. apply rel_lift. intros a E. exists a. split; [exact E|apply scalar_corr; eapply num_scalar; eauto].
  - intros f f' cs n Gd S D A B W d d' fields fields' Hg HS HD Hf. apply rel_lift. intros a E. exists a. split; [exact E|apply scalar_corr].
    destruct (str_value cs); inversion E; exact I.
  - intros f f' g m n Gd S D A B W d d' fields fields' Hg HS HD Hf. apply rel_name'.
    + eapply finds_weaken; [|exact Hf]. intros k [-> Y]. split; [left; reflexivity|exact Y].
    + intros ->. apply HS; [left|]; reflexivity.
  - intros f f' g m a a' H IH. apply dot_case; [exact IH|]. eapply re_shape; eauto.
  - intros f f' op a a' H IH n Gd S D A B W d d' fields fields' Hg HS HD Hf. rewrite !ev_un. eapply rel_bind; [apply IH; eauto using ge_succ|].
    intros W1 v v' I1 Sv. apply rel_lift. intros w E. exists w. split; [|apply scalar_corr; eapply un_scalar; eauto].
    apply co_same in Sv. rewrite <- un_value_erase, <- Sv, un_value_erase. exact E.
  - intros f f' es es' H IH. eapply lit_deep; [constructor|constructor|reflexivity|discriminate|apply arr_case; exact IH].
  - intros f f' es es' H IH. eapply lit_deep; [constructor|constructor|reflexivity|discriminate|apply tup_case; exact IH].
  - intros f f' its its' H IH. eapply lit_deep; [constructor|constructor|reflexivity|discriminate|apply obj_case; exact IH].
  - intros f f' e e' Ar H IH n Gd S D A B W d d' fields fields' Hg HS HD Hf. rewrite !ev_inc. apply rel_deep'; [apply ge_succ; exact Hg|].
    cbn [reads_atom defines_atom] in *. rewrite app_nil_r in *. eapply rel_bind; [apply IH; eauto using ge_succ|].
    intros W1 v v' I1 Sv. destruct Sv as [| | | |s| | |o q Co]; try apply rel_fail.
    + apply around_rel; auto.
    + eapply rel_bind; [apply rel_keyword; [auto|auto|auto|exact Co]|]. intros W2 ty ty' I2 <-. destruct ty; apply rel_fail.
  - intros f f' e e' p p' Ar H IH H2 IH2 n Gd S D A B W d d' fields fields' Hg HS HD Hf. rewrite !ev_inc. apply rel_deep'; [apply ge_succ; exact Hg|].
    cbn [reads_atom defines_atom] in *. eapply rel_bind.
    { apply IH; auto using ge_succ.
      - intros k X. apply HS. apply in_or_app. auto.
      - intros k X. apply HD. apply in_or_app. auto.
      - eapply finds_weaken; [|exact Hf]. intros k [X Y]. split; [apply in_or_app; auto|exact Y]. }
    intros W1 v v' I1 Sv. destruct Sv as [| | | |s| | |o q Co]; try apply rel_fail.
    eapply rel_bind; [apply rel_keyword; [auto|auto|auto|exact Co]|]. intros W2 ty ty' I2 <-. destruct ty as [ty|]; [|apply rel_fail].
    eapply rel_bind.
    { apply IH2; auto using ge_succ.
      - intros k X. apply HS. apply in_or_app. auto.
      - intros k X. apply HD. apply in_or_app. auto.
      - apply (finds_mono 0 W); [eapply incl_tran; eauto|]. eapply finds_weaken; [|exact Hf]. intros k [X Y]. split; [apply in_or_app; auto|exact Y]. }
    intros W3 u u' I3 Su. destruct Su; try apply rel_fail. apply around_rel; auto.
  - intros f f' k e e' p p' full full' Ip Ip' Ef Ef' Tw n Gd S D A B W d d' fields fields' Hg _ _ _. eapply path_rel; eauto.
  - intros f f' a c e p full' c' Li Cl Ip Hs Ef Ea H IH. eapply out_case; eauto. eapply re_kind; eauto.
  - intros f f' a e p full c a' c' Dp Li Li' Cl Ip Ef Ea H IH. apply (in_case f f' a e p full c a' c' Dp Li Li'); auto; [apply Cl|].
    pose proof (literal_names _ _ Li) as [_ N1]. pose proof (literal_names _ _ Li') as [_ N2]. rewrite N2, <- (proj2 (proj2 (proj2 (proj2 (proj2 re_defines)))) _ _ _ _ H), <- N1. apply Cl.
  - intros f f' a a' l l' H IH H2 IH2 n Gd S D A B W d d' fields fields' Hg HS HD Hf. cbn [reads defines] in *. rewrite !ev_expr_Ex. eapply rel_bind.
    { apply IH; auto.
      - intros k X. apply HS. apply in_or_app. auto.
      - intros k X. apply HD. apply in_or_app. auto.
      - eapply finds_weaken; [|exact Hf]. intros k [X Y]. split; [apply in_or_app; auto|exact Y]. }
    intros W1 v v' I1 Sv. eapply rel_bind with (Q := fun W => Forall2 (fun p q : binop * value => fst p = fst q /\ co W (snd p) (snd q))).
    { apply rel_list2 with (Q := fun W (p q : binop * value) => fst p = fst q /\ co W (snd p) (snd q)).
      - intros Wa Wb p q Iw [E C]. split; [exact E|]. eapply History.corr_mono; eauto.
      - assert (HS' : forall k, In k (flat_map (fun p : binop * atom => let (_, b) := p in reads_atom b) l) -> global_name k = true -> S k) by (intros k X; apply HS, in_or_app; auto).
        assert (HD' : forall k, In k (flat_map (fun p : binop * atom => let (_, b) := p in defines_atom b) l) -> D k) by (intros k X; apply HD, in_or_app; auto).
        assert (Hf' : Relate.finds 0 W1 (fun k => In k (flat_map (fun p : binop * atom => let (_, b) := p in reads_atom b) l) /\ is_word k = false) fields fields').
        { apply (finds_mono 0 W); [exact I1|]. eapply finds_weaken; [|exact Hf]. intros k [X Y]. split; [apply in_or_app; auto|exact Y]. }
        clear - IH2 HS' HD' Hf' Gd Hg. induction IH2 as [|[op b] [op' b'] l l' [E Hb] _ IHl]; constructor.
        + cbn [fst snd] in *. subst op'. intros W2 I2. eapply rel_bind; [apply Hb; auto|].
          * intros k X. apply HS'. cbn [flat_map]. apply in_or_app. auto.
          * intros k X. apply HD'. cbn [flat_map]. apply in_or_app. auto.
          * apply (finds_mono 0 W1); [exact I2|]. eapply finds_weaken; [|exact Hf']. intros k [X Y]. split; [cbn [flat_map]; apply in_or_app; auto|exact Y].
          * intros W3 u u' I3 C. apply rel_ret. auto.
        + apply IHl.
          * intros k X. apply HS'. cbn [flat_map]. apply in_or_app. auto.
          * intros k X. apply HD'. cbn [flat_map]. apply in_or_app. auto.
          * eapply finds_weaken; [|exact Hf']. intros k [X Y]. split; [cbn [flat_map]; apply in_or_app; auto|exact Y]. }
    intros W2 vs ws I2 Sw. apply rel_chain; auto; [exact I|eapply History.corr_mono; eauto].
  - intros. constructor.
  - intros f f' op a a' l l' H IH H2 IH2. constructor; auto.
  - intros. constructor.
  - intros f f' e e' l l' H IH H2 IH2. constructor; auto.
  - intros. constructor.
  - intros f f' h e e' l l' H IH H2 IH2. constructor; auto.
  - intros f f' t n Gd S D A B W d d' fields fields' Hg _ _ _. apply rel_ret. constructor.
  - intros f f' its its' H IH. apply obj_case; exact IH.
  - intros f f' es es' H IH. apply arr_case; exact IH.
  - intros f f' es es' H IH. apply tup_case; exact IH.
Qed.

(** ** The whole project *)
Hypothesis Reo : reorganized fs fs' ar ar' twin deeper.
Lemma good_all n : good n.
Proof.
  induction n as [n IHn] using (well_founded_induction lt_wf). intros m f f' k p p' full full' Lm Ef Ef' Tw W gl gl' h h' v x G E.
  destruct m as [|m]; cbn [afresh] in E; [discriminate|]. rewrite Ef in E. destruct (ar full) as [c|] eqn:Ea; [|discriminate].
  destruct (kind_eqb k (kind_in c)) eqn:K; [|discriminate]. apply kind_eqb_eq in K. subst k. unfold apart in E. cbn [fst snd] in E.
  destruct (ev_contents (afresh fs ar m (Some (target f p))) c ([], h)) as [[w z]|] eqn:Ec; [|discriminate]. injection E as -> <-. cbn [fst snd].
  split; [reflexivity|]. destruct (Reo full full' c Tw Ea) as (c' & Ea' & Hc). specialize (Hc _ _ Ef Ef'). rewrite body_contents in Ec.
  destruct (proj2 (proj2 (proj2 (proj2 (proj2 re_all)))) _ _ _ _ Hc m (IHn m ltac:(lia)) yes yes ([], h) ([], h') W 1 1 [] []) with (x := (@nil (str * value), h)) (y := (@nil (str * value), h')) (a := v) (x' := z)
    as (v' & y' & W' & E' & I & C & (_ & _ & (_ & D1 & _) & (_ & D2 & _) & [G' _] & _)); auto.
  - right. lia.
  - intros j u _ X. discriminate.
  - apply (inv_start nothing W h h' G Logic.I).
  - rewrite (re_kind _ _ _ _ Hc). exists v', (snd y'), W'. split; [apply (right_file _ _ _ _ _ _ _ Ef' Ea' ltac:(apply G) E')|]. split; [exact I|].
    split; [exact C|]. split; [exact G'|]. split; [exact Logic.I|]. split; [exact D1|exact D2].
Qed.
Lemma file_goes n path path' full full' g v x : canon fs path = Some full -> canon fs' path' = Some full' -> twin full full' -> g_ok g ->
  L n None IObj path ([], init_sh g) = Some (v, x) -> exists v' x', R None IObj path' ([], init_sh g) = Some (v', x') /\ erase v = erase v'.
Proof.
  intros Ef Ef' Tw G E. destruct (good_all n n None None IObj path path' full full' (le_n _) Ef Ef' Tw [] [] [] (init_sh g) (init_sh g) v x (ids_nil _ _ G G) E)
    as (_ & v' & h1 & W' & E' & _ & C & _). exists v', ([], h1). split; [exact E'|]. exact (co_same 0 _ _ _ C).
Qed.
Lemma doc_goes n items items' g o x : re_items fs fs' ar ar' twin deeper None None items items' -> (deeper = true -> nest_doc items' <= 63) -> g_ok g ->
  ev_doc (L n None) limit64 items ([], init_sh g) = Some (o, x) -> exists o' x', ev_doc (R None) limit64 items' ([], init_sh g) = Some (o', x') /\ erase_obj o = erase_obj o'.
Proof.
  intros Hi Nd G E.
  assert (Ec : body (L n None) limit64 1 [] (CObj items) ([], init_sh g) = Some (VObj o, x)).
  { rewrite <- body_contents. cbn [ev_contents]. unfold ebind. rewrite E. reflexivity. }
  destruct (proj2 (proj2 (proj2 (proj2 (proj2 re_all)))) _ _ _ _ (re_cobj _ _ _ _ _ _ _ _ _ _ Hi) n (good_all n) yes yes ([], init_sh g) ([], init_sh g) [] 1 1 [] [])
    with (x := (@nil (str * value), init_sh g)) (y := (@nil (str * value), init_sh g)) (a := VObj o) (x' := x)
    as (v' & y' & W' & E' & I & C & _); auto.
  - right. lia.
  - intros j u _ X. discriminate.
  - apply (inv_start nothing [] (init_sh g) (init_sh g) (ids_nil g g G G) Logic.I).
  - assert (E1 : body (R None) limit64 1 [] (CObj items') ([], init_sh g) = Some (v', y')).
    { unfold lim' in E'. destruct deeper eqn:Dp; [|exact E']. rewrite body_shallow; [exact E'|]. apply Nd. reflexivity. }
    rewrite <- body_contents in E1. cbn [ev_contents] in E1. apply ebind_some in E1 as (o' & z & E1 & E2). injection E2 as <- <-.
    exists o', z. split; [exact E1|]. pose proof (co_same 0 _ _ _ C) as X. injection X. auto.
Qed.
End Two.
