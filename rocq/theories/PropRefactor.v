(** * PropRefactor: changes to a document that do not change what it means: C61 to C64. *)
From Verif Require Export PropFiles Relate.
From Verif Require Import PropRound Render Refactor Relate.
From Coq Require String.
Import String.StringSyntax.
Open Scope N_scope.

Section P.
Context `{U : Unicode}.

(** The same data: equal up to identity (so [==], C12). *)
Definition alike (o o' : obj) : Prop := erase_obj o = erase_obj o'.
Lemma alike_pairs o o' : erase_pairs (obj_pairs o) = erase_pairs (obj_pairs o') ->
  option_map erase_obj (obj_parent o) = option_map erase_obj (obj_parent o') -> alike o o'.
Proof. destruct o as [i ps p], o' as [j qs q]. cbn [obj_pairs obj_parent]. intros E1 E2. unfold alike. cbn [erase_obj]. f_equal; [exact E1|exact E2]. Qed.

(** ** From meanings to loads *)
(** [items'] means something whenever [items] does, and then the two are in the relation [R]. *)
Definition becomes (R : obj -> obj -> Prop) (items items' : list (str * expr)) : Prop := forall fs file sh o x,
  sh_vals sh = [] -> g_ok (sh_g sh) -> meaning fs limit64 file sh items = Some (o, x) -> exists o' x', meaning fs limit64 file sh items' = Some (o', x') /\ R o o'.
Lemma becomes_str R items items' fs g text text' o : g_ok g -> becomes R items items' -> r_doc items text -> r_doc items' text' ->
  from_str fs g text = Some (OOk o) -> exists o', from_str fs g text' = Some (OOk o') /\ R o o'.
Proof.
  intros G B H H' E. apply (str_ok fs g items text H) in E as [x M]. destruct (B fs None (init_sh g) o x eq_refl G M) as (o' & x' & M' & K).
  exists o'. split; auto. apply (str_ok fs g items' text' H'). eauto.
Qed.
Lemma meaning_loads fs g path i fe c d text o x : fs_entry fs path = Some (i, fe) -> fe_canon fe = Some c -> r_doc d text ->
  meaning fs limit64 (Some path) (file_sh fs g path) d = Some (o, x) -> loads fs [c] (Some path) g text o.
Proof.
  intros He Ec Hd M. assert (Hcan : canon fs path = Some c) by (unfold canon; rewrite He; exact Ec).
  assert (Oc : octx fs (Some path) [] [c]) by (apply inc_ctx; auto; constructor).
  assert (Hc : ctx fs False (Some path) [] [c]) by (right; right; eauto).
  assert (Rm : Include.room fs [c] (inc_fuel fs)).
  { split; [repeat constructor; auto|]. split; [|unfold inc_fuel; cbn; lia]. intros z [<-|[]]. eapply canon_in; eauto. }
  assert (HS : SI fs (fun _ => True) [] [c] (file_sh fs g path)).
  { unfold file_sh. rewrite Hcan. split; [reflexivity|]. split; [|exact I]. apply LI_open; auto. apply LI_init. }
  assert (Sm0 : same_state (file_sh fs g path) (init_sh g)) by (split; reflexivity).
  destruct (proj1 (loads_meaning fs (Some path) [c] (file_sh fs g path) d o Oc Hc Rm HS (Forall_nil _) _ Sm0) (ex_intro _ _ M)) as (inc & y & Hi & Ev).
  exists d, inc, (file_sh fs g path), y. split; [exact Hd|]. split; [exact Hi|]. split; [apply same_sym; exact Sm0|exact Ev].
Qed.
Lemma becomes_file R items items' fs fs' g path i fe i' fe' c text text' o : g_ok g -> becomes R items items' -> only_differs c fs fs' ->
  fs_entry fs path = Some (i, fe) -> fe_read fe = inl text -> fe_canon fe = Some c ->
  fs_entry fs' path = Some (i', fe') -> fe_read fe' = inl text' ->
  r_doc items text -> r_doc items' text' ->
  from_file fs g path = Some (OOk o) -> exists o', from_file fs' g path = Some (OOk o') /\ R o o'.
Proof.
  intros G B D En Rd Fc En' Rd' H H' E. assert (Fc' : fe_canon fe' = Some c).
  { destruct (D path) as [C _]. unfold canon in C. rewrite En, En' in C. congruence. }
  assert (Re : readable fs path text) by (exists i, fe; repeat split; auto; congruence).
  apply (file_ok fs g path items text Re H) in E as [x M].
  assert (Sv : sh_vals (file_sh fs g path) = []) by (unfold file_sh; destruct (canon fs path); reflexivity).
  assert (Sg : g_ok (sh_g (file_sh fs g path))) by (unfold file_sh; destruct (canon fs path); exact G).
  destruct (B _ _ _ _ _ Sv Sg M) as (o' & x' & M' & K). exists o'. split; [|exact K].
  apply (C43_file fs' g path i' fe' text' c o' En' Rd' Fc'). apply (loads_elsewhere fs); auto. eapply meaning_loads; eauto.
Qed.

(** ** The rest of a document *)
Lemma lim64_down d d' : d' <= d -> limit64 d = true -> limit64 d' = true.
Proof. unfold limit64. rewrite !N.leb_le. lia. Qed.
Definition ge64 (d d' : N) : Prop := d' <= d.
Lemma ge64_succ d d' : ge64 d d' -> ge64 (d + 1) (d' + 1). Proof. unfold ge64. lia. Qed.

(** one item *)
Definition stores (h : str) (v : value) (y : est) (r : list pair_t * option obj) (x : est) (r' : list pair_t * option obj) (x' : est) : Prop :=
  match kind_of_item h with
  | KGlobal => assoc h (fst x) = None /\ r' = r /\ x' = ((h, v) :: fst y, snd y)
  | KParent => snd r = None /\ exists o, v = VObj o /\ r' = (fst r, Some o) /\ x' = y
  | KField => ~ In h (map fst (fst r)) /\ r' = (fst r ++ [(h, v)], snd r) /\ x' = y
  | _ => False
  end.
Lemma one_item inc lim h e r x r' x' : ev_items (ev_expr inc lim 1) [(h, e)] (fst r) (snd r) x = Some (r', x') <->
  exists v y, ev_expr inc lim 1 (fst r) e x = Some (v, y) /\ stores h v y r x r' x'.
Proof.
  rewrite ev_items_cons. unfold stores. destruct r as [fl par]. cbn [fst snd]. destruct (kind_of_item h) eqn:K.
  - unfold ebind at 1, eglobals. destruct (assoc h (fst x)); [split; [discriminate|intros (v' & y & _ & Q & _); discriminate]|].
    split.
    + intros E. apply ebind_some in E as (v & y & E & E'). inversion E'; subst. eauto 8.
    + intros (v & y & E & _ & -> & ->). unfold ebind. rewrite E. reflexivity.
  - destruct par; [split; [discriminate|intros (v & y & _ & Q & _); discriminate]|]. split.
    + intros E. apply ebind_some in E as (v & y & E & E'). exists v, y. split; auto. split; auto. destruct v; try discriminate. inversion E'; subst. eauto.
    + intros (v & y & E & _ & o & -> & -> & ->). unfold ebind. rewrite E. reflexivity.
  - destruct (mem_str h (map fst fl)) eqn:M.
    { split; [discriminate|]. intros (v & y & _ & Q & _). exfalso. apply Q. apply mem_str_iff. exact M. }
    split.
    + intros E. apply ebind_some in E as (v & y & E & E'). inversion E'; subst. exists v, x'. split; auto. split; auto. intros X. apply mem_str_iff in X. congruence.
    + intros (v & y & E & _ & -> & ->). unfold ebind. rewrite E. reflexivity.
  - split; [discriminate|]. intros (v & y & _ & []).
Qed.

Section Mid.
Variables (fs : fsys) (file : option str).
Notation inc := (include_meaning fs file).
Notation ev := (ev_items (ev_expr inc limit64 1)).
(** Two evaluations agree well enough to continue with [its]. *)
Definition continues (V : Prop) (base : N) (W : wd) (its : list (str * expr)) (r : list pair_t * option obj) (x : est) (r' : list pair_t * option obj) (x' : est) : Prop :=
  finds base W (fun n => In n (item_reads its) /\ global_name n = true) (fst x) (fst x') /\ free (fun n => In n (item_defines its)) (fst x) (fst x') /\
  finds base W (fun n => In n (item_reads its)) (fst r) (fst r') /\
  (forall f, In f (map fst its) -> In f (map fst (fst r')) -> In f (map fst (fst r))) /\
  co_opt base W (snd r) (snd r') /\ agree base (tab base V) W (snd x) (snd x') /\ wfvals (snd x) /\ wfvals (snd x').
(** An evaluation agrees with itself. *)
Definition known (base : N) (W : wd) (r : list pair_t * option obj) (x : est) : Prop :=
  corr_pairs base base W (fst r) (fst r) /\ co_opt base W (snd r) (snd r) /\ finds base W (fun _ => True) (fst x) (fst x) /\
  agree base (tab base True) W (snd x) (snd x) /\ wfvals (snd x).
Lemma finds_self base W S l : finds base W (fun _ => True) l l -> finds base W S l l.
Proof. intros F n v _. apply F. exact I. Qed.
Lemma known_items lim base W its fields parent x r y : known base W (fields, parent) x -> ev_items (ev_expr inc lim 1) its fields parent x = Some (r, y) ->
  exists W', incl W W' /\ known base W' r y.
Proof.
  intros (K1 & K2 & K3 & K4 & K5) E. assert (G : g_ok (sh_g (snd x))) by apply K4.
  destruct (rel_all_items fs file lim eq ltac:(intros; congruence) ltac:(intros; congruence) (fun _ => True) (fun _ => True) base True x x [] its W 1 1 fields fields parent parent
    (or_intror I) eq_refl (fun _ _ _ => I) (fun _ _ => I) (finds_pairs base W _ _ _ K1) (fun _ _ X => X) K2 x x r y)
    as (r' & y' & W' & E' & Ic & (new & new' & N1 & N2 & N3 & N4) & (I1 & I2 & I3 & I4 & I5 & I6)).
  { split; [exact K3|]. split; [intros n _ X; exact X|]. split; [apply past_self; auto|]. split; [apply past_self; auto|]. split; [exact K4|]. intros q []. }
  { exact E. }
  rewrite E in E'. injection E' as <- <-. exists W'. split; [exact Ic|]. rewrite N1 in N2. apply app_inv_head in N2. subst new'.
  split; [|split; [exact N4|split; [exact I1|split; [exact I5|apply (past_ok _ _ I3)]]]].
  rewrite N1. apply Forall2_app; [|exact N3]. exact (History.corr_pairs_mono _ _ _ _ _ _ Ic K1).
Qed.
Lemma known_begin sh : sh_vals sh = [] -> g_ok (sh_g sh) -> known (g_next (sh_g sh)) [] ([], None) ([], sh).
Proof.
  intros Sv G. split; [constructor|]. split; [exact I|]. split; [intros n v _ X; discriminate|]. split.
  - split; [split; [split; [exact G|reflexivity]|]; split; [split; [exact G|reflexivity]|]; split; [intros []|intros i j []]|].
    intros _. cbn [snd]. rewrite Sv. split; [constructor|reflexivity].
  - cbn [snd]. unfold wfvals. rewrite Sv. constructor.
Qed.
Lemma corr_erase_pairs base W ps qs : corr_pairs base base W ps qs -> erase_pairs ps = erase_pairs qs.
Proof.
  intros H. induction H as [|[f v] [g w] ps qs [E C] _ IH]; [reflexivity|]. cbn in E. subst g. cbn in C. apply History.corr_erase in C.
  cbn [erase_pairs map]. unfold erase_pairs in IH. rewrite IH, C. reflexivity.
Qed.
Lemma co_opt_erase base W p q : co_opt base W p q -> option_map erase_obj p = option_map erase_obj q.
Proof.
  destruct p as [p|], q as [q|]; cbn; try contradiction; [|reflexivity]. intros C. assert (H : corr base base W (VObj p) (VObj q)) by (constructor; exact C).
  apply History.corr_erase in H. cbn [erase] in H. injection H as H. rewrite H. reflexivity.
Qed.
Lemma mid its1 M M' its3 sh o x : sh_vals sh = [] -> g_ok (sh_g sh) ->
  meaning fs limit64 file sh (its1 ++ M ++ its3) = Some (o, x) ->
  exists r1 x1 r2 x2 W0, ev its1 [] None ([], sh) = Some (r1, x1) /\ ev M (fst r1) (snd r1) x1 = Some (r2, x2) /\ known (g_next (sh_g sh)) W0 r1 x1 /\
    forall r2' x2' V W, ev M' (fst r1) (snd r1) x1 = Some (r2', x2') -> item_plain its3 = true \/ V ->
    continues V (g_next (sh_g sh)) W its3 r2 x2 r2' x2' ->
    exists o' x' Q Q', meaning fs limit64 file sh (its1 ++ M' ++ its3) = Some (o', x') /\
      obj_pairs o = fst r2 ++ Q /\ obj_pairs o' = fst r2' ++ Q' /\ erase_pairs Q = erase_pairs Q' /\
      option_map erase_obj (obj_parent o) = option_map erase_obj (obj_parent o').
Proof.
  intros Sv Sg E. apply doc_items in E as (r & y & E & ->). rewrite items_app in E. apply ebind_some in E as (r1 & x1 & E1 & E).
  rewrite items_app in E. apply ebind_some in E as (r2 & x2 & E2 & E3).
  destruct (known_items limit64 _ _ _ _ _ _ _ _ (known_begin sh Sv Sg) E1) as (W0 & _ & K0).
  exists r1, x1, r2, x2, W0. split; [exact E1|]. split; [exact E2|]. split; [exact K0|]. intros r2' x2' V W E2' P (C1 & C2 & C3 & C4 & C5 & C6 & C7 & C8).
  destruct (rel_all_items fs file limit64 ge64 ge64_succ lim64_down (fun n => In n (item_reads its3) /\ global_name n = true) (fun n => In n (item_defines its3)) (g_next (sh_g sh)) V x2 x2' [] its3 W 1 1
    (fst r2) (fst r2') (snd r2) (snd r2') P ltac:(unfold ge64; lia) (fun n A B => conj A B) (fun n A => A) C3 C4 C5 x2 x2' r y)
    as (r' & y' & W' & E3' & _ & (new & new' & N1 & N2 & N3 & N4) & _).
  { split; [exact C1|]. split; [exact C2|]. split; [apply past_self; auto; apply C6|]. split; [apply past_self; auto; apply C6|]. split; [exact C6|]. intros q []. }
  { exact E3. }
  destruct y' as [gl' sh'].
  exists (MkObj (g_next (sh_g sh')) (fst r') (snd r')). eexists. exists new, new'. cbn [obj_pairs obj_parent].
  split; [|split; [exact N1|split; [exact N2|split; [eapply corr_erase_pairs; eauto|eapply co_opt_erase; eauto]]]].
  unfold meaning, ev_doc, ebind. rewrite items_app. unfold ebind. rewrite E1. rewrite items_app. unfold ebind. rewrite E2', E3'.
  reflexivity.
Qed.
Lemma frame_expr (D : str -> Prop) lim d fields e x v y : (forall n, In n (defines e) -> D n) ->
  ev_expr inc lim d fields e x = Some (v, y) -> forall n, ~ D n -> assoc n (fst y) = assoc n (fst x).
Proof. intros H E. apply (proj2 (fr_ev inc lim (inc_globals fs file) D) e H d fields _ _ _ E). Qed.
Lemma stays_expr lim d fields e x v y : wfvals (snd x) -> ev_expr inc lim d fields e x = Some (v, y) ->
  wfvals (snd y) /\ forall n w, assoc n (fst x) = Some w -> assoc n (fst y) = Some w.
Proof. intros W E. apply (step_expr fs file) in E. destruct (E W) as (W' & [L _] & _). auto. Qed.
Lemma stays_items its fields parent x r y : wfvals (snd x) -> ev its fields parent x = Some (r, y) -> wfvals (snd y).
Proof. intros W E. apply (step_items fs file) in E. apply (E W). Qed.
End Mid.

Lemma field_not_global h : kind_of_item h = KField -> global_name h = false.
Proof. destruct h as [|c h]; [reflexivity|]. cbn [global_name]. destruct (N.eqb_spec c c_at) as [->|]; [|reflexivity]. discriminate. Qed.
(** ** C63: what nobody reads *)
Definition unread (h : str) (e : expr) (its : list (str * expr)) : Prop :=
  ~ In h (item_reads its) /\ forall n, In n (defines e) -> ~ In n (item_reads its).
Definition removed (h : str) (o o' : obj) : Prop := exists before v after,
  obj_pairs o = before ++ (h, v) :: after /\ alike o' (MkObj 0 (before ++ after) (obj_parent o)).

Lemma agree_self base W h : agree base (tab base True) W h h -> ids base W (sh_g h) (sh_g h). Proof. intros A. apply A. Qed.
Lemma dropped its1 h e its3 : kind_of_item h <> KParent -> unread h e its3 -> plain e = true \/ item_plain its3 = true ->
  becomes (fun o o' => if global_name h then alike o o' else removed h o o') (its1 ++ [(h, e)] ++ its3) (its1 ++ [] ++ its3).
Proof.
  intros Kh [U1 U2] P fs file sh o x S0 G0 M. destruct (mid fs file its1 _ [] its3 sh o x S0 G0 M) as (r1 & x1 & r2 & x2 & W0 & E1 & E2 & K0 & K).
  destruct K0 as (Kp & Ko & Kg & Ka & W1). assert (G1 : g_ok (sh_g (snd x1))) by apply Ka.
  apply one_item in E2 as (v & y & E2 & Sv).
  pose proof (fun n => frame_expr fs file (fun n => In n (defines e)) _ _ _ _ _ _ _ (fun n X => X) E2 n) as Fr.
  pose proof (goes_expr fs file _ _ _ _ _ _ _ E2 W1 G1) as (St & Dy & Wy).
  pose proof (fun p => still_expr fs file _ _ _ _ _ _ _ p E2) as Sy.
  set (base := g_next (sh_g sh)) in *.
  assert (Fp : forall F, finds base W0 F (fst r1) (fst r1)) by (intros F; apply finds_pairs; exact Kp).
  specialize (K r1 x1 (plain e = true) W0). destruct K as (o' & x' & Q & Q' & M' & O1 & O2 & O3 & O4).
  - destruct r1; reflexivity.
  - tauto.
  - assert (Ag : agree base (tab base (plain e = true)) W0 (snd y) (snd x1)).
    { split; [apply (ids_later base W0 (sh_g (snd x1)) (sh_g (snd x1))); [apply Ka|exact Dy|apply desc_refl; exact G1]|].
      intros p. destruct (Sy p) as [A1 A2]. rewrite A1, A2. apply Ka. exact I. }
    assert (G : finds base W0 (fun n => In n (item_reads its3) /\ global_name n = true) (fst x2) (fst x1) /\ free (fun n => In n (item_defines its3)) (fst x2) (fst x1) /\
      finds base W0 (fun n => In n (item_reads its3)) (fst r2) (fst r1) /\ (forall f, In f (map fst (fst r1)) -> In f (map fst (fst r2))) /\ snd r2 = snd r1 /\ snd x2 = snd y).
    { assert (Y1 : forall n w, In n (item_reads its3) -> assoc n (fst y) = Some w -> exists w', assoc n (fst x1) = Some w' /\ corr base base W0 w w').
      { intros n w In1 A. rewrite Fr in A; [apply (Kg n w I A)|]. intros X. apply (U2 _ X In1). }
      assert (Y2 : forall n, assoc n (fst y) = None -> assoc n (fst x1) = None).
      { intros n A. destruct (assoc n (fst x1)) eqn:B; auto. apply St in B. congruence. }
      unfold stores in Sv. destruct (kind_of_item h); try contradiction.
      - destruct Sv as (_ & -> & ->). cbn [fst snd]. split; [|split; [|split; [apply Fp|auto]]].
        + intros n w [In1 _] A. cbn [assoc] in A. destruct (str_eqb_spec h n) as [->|]; [contradiction|]. auto.
        + intros n _ A. cbn [assoc] in A. destruct (str_eqb h n); [discriminate|]. auto.
      - destruct Sv as (Nh & -> & ->). cbn [fst snd]. split; [|split; [|split; [|split; [|split; reflexivity]]]].
        + intros n w [In1 _] A. auto.
        + intros n _ A. auto.
        + intros n w In1 A. apply (Fp (fun _ => True) n w I). destruct (assoc n (fst r1)) as [u|] eqn:B.
          { rewrite (assoc_app_l _ _ _ _ B) in A. exact A. }
          exfalso. apply assoc_none in B. apply (eq_trans (eq_sym (assoc_app_r n (fst r1) [(h, v)] B))) in A. cbn in A. destruct (str_eqb_spec h n) as [->|]; [contradiction|discriminate].
        + intros f X. rewrite map_app. apply in_or_app. auto. }
    destruct G as (H1 & H2 & H3 & H4 & H5 & H6). split; [exact H1|]. split; [exact H2|]. split; [exact H3|]. split; [auto|]. rewrite H5, H6.
    split; [exact Ko|]. split; [exact Ag|]. auto.
  - exists o', x'. split; [exact M'|]. unfold stores in Sv. destruct (kind_of_item h) eqn:Kd; try contradiction.
    + rewrite (kind_is_global h Kd). destruct Sv as (_ & -> & _). apply alike_pairs; auto. rewrite O1, O2, !erase_pairs_app, O3. reflexivity.
    + replace (global_name h) with false. 2:{ symmetry. apply (field_not_global _ Kd). }
      destruct Sv as (_ & -> & _). cbn [fst] in O1. rewrite <- app_assoc in O1. exists (fst r1), v, Q. split; [exact O1|].
      apply alike_pairs; [|symmetry; exact O4]. cbn [obj_pairs]. rewrite O2, !erase_pairs_app, O3. reflexivity.
Qed.

(** ** C62: the order of independent items *)
Definition writes (h : str) (e : expr) : list str := h :: defines e.
Definition uses (h : str) (e : expr) : list str := h :: reads e ++ defines e.
(** neither writes a name that the other uses *)
Definition independent (h1 : str) (e1 : expr) (h2 : str) (e2 : expr) : Prop :=
  (forall n, In n (writes h1 e1) -> ~ In n (uses h2 e2)) /\ (forall n, In n (writes h2 e2) -> ~ In n (uses h1 e1)).
Definition is_field (h : str) : bool := match kind_of_item h with KField => true | _ => false end.
Definition swapped (h1 h2 : str) (o o' : obj) : Prop :=
  if is_field h1 && is_field h2
  then exists before v1 v2 after, obj_pairs o = before ++ (h1, v1) :: (h2, v2) :: after /\
         alike o' (MkObj 0 (before ++ (h2, v2) :: (h1, v1) :: after) (obj_parent o))
  else alike o o'.

Definition field_part (h : str) (v : value) : list pair_t := if is_field h then [(h, v)] else [].
Definition parent_part (h : str) (v : value) (q : option obj) : option obj :=
  match kind_of_item h, v with KParent, VObj o => Some o | _, _ => q end.
Definition added (h : str) (v : value) (r : list pair_t * option obj) : list pair_t * option obj := (fst r ++ field_part h v, parent_part h v (snd r)).
Lemma assoc_app n (l l' : list pair_t) : assoc n (l ++ l') = match assoc n l with Some v => Some v | None => assoc n l' end.
Proof.
  induction l as [|[f v] l IH]; [reflexivity|]. cbn [app assoc]. destruct (str_eqb f n); [reflexivity|exact IH].
Qed.
Lemma stores_added h v y r x r' x' : stores h v y r x r' x' -> r' = added h v r /\ ~ (kind_of_item h = KIllegal) /\
  (kind_of_item h = KGlobal -> assoc h (fst x) = None) /\ (kind_of_item h = KParent -> snd r = None /\ exists o, v = VObj o) /\
  (kind_of_item h = KField -> ~ In h (map fst (fst r))) /\ x' = (if global_name h then ((h, v) :: fst y, snd y) else y).
Proof.
  unfold stores, added, field_part, parent_part, is_field. destruct r as [fl q]. cbn [fst snd]. destruct (kind_of_item h) eqn:K.
  - intros (A & -> & ->). rewrite app_nil_r, (kind_is_global h K). repeat split; auto; discriminate.
  - intros (A & o & -> & -> & ->). rewrite app_nil_r. apply kind_parent in K as ->. repeat split; auto; try discriminate. eauto.
  - intros (A & -> & ->). rewrite (field_not_global h K). repeat split; auto; discriminate.
  - contradiction.
Qed.
Lemma added_stores h v y r x : ~ (kind_of_item h = KIllegal) ->
  (kind_of_item h = KGlobal -> assoc h (fst x) = None) -> (kind_of_item h = KParent -> snd r = None /\ exists o, v = VObj o) ->
  (kind_of_item h = KField -> ~ In h (map fst (fst r))) ->
  stores h v y r x (added h v r) (if global_name h then ((h, v) :: fst y, snd y) else y).
Proof.
  unfold stores, added, field_part, parent_part, is_field. destruct r as [fl q]. cbn [fst snd]. destruct (kind_of_item h) eqn:K; intros H1 H2 H3 H4.
  - rewrite app_nil_r, (kind_is_global h K). auto.
  - destruct (H3 eq_refl) as (A & o & ->). rewrite app_nil_r. apply kind_parent in K as ->. split; auto. exists o. auto.
  - rewrite (field_not_global h K). auto.
  - contradiction.
Qed.

Lemma bind_step {A B} (m : ES A) (f : A -> ES B) x a y : m x = Some (a, y) -> ebind m f x = f a y.
Proof. intros E. unfold ebind. rewrite E. reflexivity. Qed.

Section Swap.
Variables (fs : fsys) (file : option str).
Notation inc := (include_meaning fs file).
Notation ev := (ev_items (ev_expr inc limit64 1)).
Lemma item_frame h e r x r' x' : ev [(h, e)] (fst r) (snd r) x = Some (r', x') -> forall n, ~ In n (writes h e) -> assoc n (fst x') = assoc n (fst x).
Proof.
  intros E n Hn. apply one_item in E as (v & y & E & S). apply stores_added in S as (_ & _ & _ & _ & _ & ->).
  assert (F : assoc n (fst y) = assoc n (fst x)).
  { apply (frame_expr fs file (fun n => In n (defines e)) _ _ _ _ _ _ _ (fun n X => X) E). intros X. apply Hn. right. exact X. }
  destruct (global_name h); [|exact F]. cbn [fst assoc]. destruct (str_eqb_spec h n) as [->|]; [|exact F]. exfalso. apply Hn. left. reflexivity.
Qed.
(** an item evaluated elsewhere *)
Lemma again base W0 (V : Prop) h e (T : list str) r x r2 x2 r' x' : plain e = true \/ V ->
  ev [(h, e)] (fst r) (snd r) x = Some (r2, x2) ->
  (forall n, ~ In n T -> assoc n (fst x) = assoc n (fst x')) -> finds base W0 (fun n => ~ In n T) (fst x) (fst x') -> (forall n, In n T -> ~ In n (uses h e)) ->
  finds base W0 (fun n => In n (reads e)) (fst r) (fst r') -> (In h (map fst (fst r')) -> In h (map fst (fst r))) ->
  (kind_of_item h = KParent -> snd r = None -> snd r' = None) ->
  agree base (tab base V) W0 (snd x) (snd x') -> wfvals (snd x) -> wfvals (snd x') ->
  exists v v' x2' W, ev [(h, e)] (fst r') (snd r') x' = Some (added h v' r', x2') /\ r2 = added h v r /\ corr base base W v v' /\
    (kind_of_item h = KParent -> exists o, v = VObj o) /\ kind_of_item h <> KIllegal /\
    (kind_of_item h = KField -> ~ In h (map fst (fst r))) /\
    finds base W (fun n => ~ In n T) (fst x2) (fst x2') /\ free (fun n => ~ In n T) (fst x2) (fst x2') /\
    incl W0 W /\ agree base (tab base V) W (snd x2) (snd x2') /\ past x' x2'.
Proof.
  intros P E Eq Fq Dj Hf Hh Hp Ag Wx Wx'. apply one_item in E as (v & y & E & S). apply stores_added in S as (-> & S1 & S2 & S3 & S4 & ->).
  destruct (rel_expr fs file limit64 ge64 ge64_succ lim64_down (fun n => ~ In n T) (fun n => ~ In n T) base V x x' [] e W0 1 1 (fst r) (fst r') P ltac:(unfold ge64; lia)) with (x := x) (y := x') (a := v) (x' := y)
    as (v' & y' & W & E' & Iw & Sv & F & G & _ & Py & Ay & _); auto.
  { intros n X _ K. apply (Dj n K). right. apply in_or_app. auto. }
  { intros n X K. apply (Dj n K). right. apply in_or_app. auto. }
  { split; [exact Fq|]. split; [intros n Hn A; rewrite Eq in A by exact Hn; exact A|]. split; [apply past_self; auto; apply Ag|]. split; [apply past_self; auto; apply Ag|].
    split; [exact Ag|]. intros q []. }
  assert (Ht : ~ In h T) by (intros X; apply (Dj h X); left; reflexivity).
  assert (Nh : kind_of_item h = KGlobal -> assoc h (fst x') = None) by (intros K; rewrite <- Eq by exact Ht; auto).
  exists v, v', (if global_name h then ((h, v') :: fst y', snd y') else y'), W.
  split; [|split; [reflexivity|split; [exact Sv|split; [intros K; apply (S3 K)|split; [exact S1|split; [exact S4|]]]]]].
  - apply one_item. exists v', y'. split; [exact E'|]. apply added_stores; auto.
    + intros K. destruct (S3 K) as (Q1 & o & ->). split; [auto|]. inversion Sv; subst. eauto.
    + intros K X. apply (S4 K). auto.
  - destruct (global_name h) eqn:Gh; cbn [fst snd]; [|exact (conj F (conj G (conj Iw (conj Ay Py))))].
    split; [|split; [|split; [exact Iw|split; [exact Ay|]]]].
    + intros n w Hn A. cbn [assoc] in *. destruct (str_eqb h n); [injection A as <-; eauto|]. apply F; auto.
    + intros n Hn A. cbn [assoc] in *. destruct (str_eqb h n); [discriminate|]. apply G; auto.
    + destruct Py as (Y1 & Y2 & Y3). split; [|auto]. intros n w A. cbn [fst assoc]. destruct (str_eqb_spec h n) as [<-|]; [|auto].
      rewrite Nh in A; [discriminate|]. destruct (kind_of_item h) eqn:K.
      * reflexivity.
      * apply kind_parent in K as ->. discriminate.
      * apply field_not_global in K. congruence.
      * contradiction.
Qed.
End Swap.

Lemma field_part_none h v n : n <> h -> assoc n (field_part h v) = None.
Proof. unfold field_part. destruct (is_field h); [|reflexivity]. intros N. cbn. destruct (str_eqb_spec h n); [congruence|reflexivity]. Qed.
Lemma field_part_same base W h v v' n w : corr base base W v v' -> assoc n (field_part h v) = Some w -> exists w', assoc n (field_part h v') = Some w' /\ corr base base W w w'.
Proof.
  unfold field_part. destruct (is_field h); [|discriminate]. cbn. destruct (str_eqb h n); [|discriminate]. intros S E. injection E as <-. eauto.
Qed.
Lemma corr_same base W v v' : corr base base W v v' -> same v v'. Proof. apply History.corr_erase. Qed.
Lemma item_past fs file h e r x r' x' : ev_items (ev_expr (include_meaning fs file) limit64 1) [(h, e)] (fst r) (snd r) x = Some (r', x') ->
  wfvals (snd x) -> g_ok (sh_g (snd x)) -> past x x' /\ (plain e = true -> still x x').
Proof.
  intros E Wx Gx. split; [eapply goes_items; eauto|]. intros P. apply one_item in E as (v & y & E & S). apply still_expr in E; [|exact P].
  apply stores_added in S as (_ & _ & _ & _ & _ & ->). destruct (global_name h); exact E.
Qed.

Lemma reorder its1 h1 e1 h2 e2 its3 : independent h1 e1 h2 e2 -> plain e1 = true \/ plain e2 = true ->
  becomes (swapped h1 h2) (its1 ++ [(h1, e1); (h2, e2)] ++ its3) (its1 ++ [(h2, e2); (h1, e1)] ++ its3).
Proof.
  intros [I1 I2] P fs file sh o x S0 G0 M.
  destruct (mid fs file its1 _ [(h2, e2); (h1, e1)] its3 sh o x S0 G0 M) as (r1 & x1 & r3 & x3 & W0 & E1 & E & (Kp & Ko & Kg & Ka & Wx1) & K).
  set (base := g_next (sh_g sh)) in *. assert (Gx1 : g_ok (sh_g (snd x1))) by apply Ka.
  change [(h1, e1); (h2, e2)] with ([(h1, e1)] ++ [(h2, e2)]) in E. rewrite items_app in E. apply ebind_some in E as (r2 & x2 & Ea & Eb).
  assert (Nh : h1 <> h2) by (intros ->; apply (I1 h2); left; reflexivity).
  pose proof (item_frame fs file _ _ _ _ _ _ Ea) as Fa. pose proof (item_frame fs file _ _ _ _ _ _ Eb) as Fb.
  destruct (item_past fs file _ _ _ _ _ _ Ea Wx1 Gx1) as [Pa Sa]. destruct (past_ok _ _ Pa) as [Wx2 Gx2].
  destruct (item_past fs file _ _ _ _ _ _ Eb Wx2 Gx2) as [Pb Sb]. destruct (past_ok _ _ Pb) as [Wx3 Gx3].
  assert (Aa : exists v1, r2 = added h1 v1 r1).
  { apply one_item in Ea as (v & y & _ & S). apply stores_added in S as (-> & _). eauto. }
  destruct Aa as (v0 & Er2).
  assert (Fp : forall F, finds base W0 F (fst r1) (fst r1)) by (intros F; apply finds_pairs; exact Kp).
  destruct (again fs file base W0 (plain e1 = true) h2 e2 (writes h1 e1) r2 x2 r3 x3 r1 x1) as (v2 & v2' & x2' & W2 & Eb' & Er3 & S2 & Kp2 & _ & Kf2 & F2 & G2 & Iw2 & Ag2 & Py2); auto.
  { tauto. }
  { intros n w Hn A. rewrite Fa in A by exact Hn. apply (Kg n w I A). }
  { intros n w Hn A. rewrite Er2 in A. unfold added in A. cbn [fst] in A. rewrite assoc_app in A.
    destruct (assoc n (fst r1)) eqn:Z; [injection A as <-; apply (Fp (fun _ => True) n v I Z)|]. rewrite field_part_none in A; [discriminate|]. intros ->. apply (I1 h1); [left; reflexivity|].
    right. apply in_or_app. auto. }
  { intros X. rewrite Er2. cbn [added fst]. rewrite map_app. apply in_or_app. auto. }
  { rewrite Er2. cbn [added snd]. unfold parent_part. destruct (kind_of_item h1), v0; auto; discriminate. }
  { split; [eapply ids_later; [apply Ka|apply Pa|apply desc_refl; exact Gx1]|]. intros p. destruct (Sa p) as [A1 A2]. rewrite A1, A2. apply Ka. exact I. }
  pose proof (item_frame fs file _ _ _ _ _ _ Eb') as Fb'. destruct (past_ok _ _ Py2) as [Wx2' Gx2'].
  pose proof (proj2 (item_past fs file _ _ _ _ _ _ Eb' Wx1 Gx1)) as Sb'.
  destruct (again fs file base W0 (plain e2 = true) h1 e1 (writes h2 e2) r1 x1 r2 x2 (added h2 v2' r1) x2') as (v1 & v1' & x3' & W1 & Ea' & Er2' & S1 & Kp1 & _ & Kf1 & F1 & G1 & Iw1 & Ag1 & Py1); auto.
  { intros n A. symmetry. apply Fb'; auto. }
  { intros n w Hn A. rewrite Fb' by exact Hn. apply (Kg n w I A). }
  { intros n w Hn A. destruct (Fp (fun _ => True) n w I A) as (w' & A' & C). exists w'. split; [|exact C]. cbn [added fst]. rewrite assoc_app, A'. reflexivity. }
  { cbn [added fst]. rewrite map_app, in_app_iff. intros [X|X]; auto. exfalso. unfold field_part in X. destruct (is_field h2); [|destruct X].
    destruct X as [X|[]]. cbn in X. congruence. }
  { intros X Y. cbn [added snd]. unfold parent_part. destruct (kind_of_item h2) eqn:K2; auto. apply kind_parent in X, K2. congruence. }
  { split; [eapply ids_later; [apply Ka|apply desc_refl; exact Gx1|apply Py2]|]. intros p. destruct (Sb' p) as [A1 A2]. rewrite A1, A2. apply Ka. exact I. }
  pose proof (item_frame fs file _ _ _ _ _ _ Ea') as Fa'. destruct (past_ok _ _ Py1) as [Wx3' Gx3'].
  pose proof (proj2 (item_past fs file _ _ _ _ _ _ Ea' Wx2' Gx2')) as Sa'.
  clear v0 Er2. subst r2. subst r3.
  assert (J2 : incl W2 (W2 ++ W1)) by (apply incl_appl, incl_refl). assert (J1 : incl W1 (W2 ++ W1)) by (apply incl_appr, incl_refl).
  assert (J0 : incl W0 (W2 ++ W1)) by (eapply incl_tran; eauto).
  apply (History.corr_mono _ _ _ _ _ _ J1) in S1. apply (History.corr_mono _ _ _ _ _ _ J2) in S2.
  assert (Ag : agree base (tab base True) (W2 ++ W1) (snd x3) (snd x3')).
  { split.
    - apply ids_union; [eapply ids_later; [apply Ag2|apply desc_refl; exact Gx3|apply Py1]|eapply ids_later; [apply Ag1|apply Pb|apply desc_refl; exact Gx3']].
    - intros _. destruct P as [P|P].
      + destruct (proj2 Ag2 P) as [B1 B2]. destruct (Sa' P) as [A1 A2]. rewrite A1, A2. split; [|exact B2]. exact (History.corr_pairs_mono _ _ _ _ _ _ J2 B1).
      + destruct (proj2 Ag1 P) as [B1 B2]. destruct (Sb P) as [A1 A2]. rewrite A1, A2. split; [|exact B2]. exact (History.corr_pairs_mono _ _ _ _ _ _ J1 B1). }
  assert (C : continues True base (W2 ++ W1) its3 (added h2 v2 (added h1 v1 r1)) x3 (added h1 v1' (added h2 v2' r1)) x3').
  { assert (Gl : forall n, finds base (W2 ++ W1) (fun m => m = n) (fst x3) (fst x3') /\ free (fun m => m = n) (fst x3) (fst x3')).
    { intros n. destruct (in_dec (list_eq_dec N.eq_dec) n (writes h1 e1)) as [T1|T1].
      - assert (T2 : ~ In n (writes h2 e2)). { intros X. apply (I1 n T1). destruct X as [X|X]; [left; exact X|right; apply in_or_app; auto]. }
        split; [intros m w -> A|intros m -> A]; rewrite (Fb n T2) in A; [|apply (G1 n T2 A)].
        destruct (F1 n w T2 A) as (w' & A' & C). exists w'. split; [exact A'|]. exact (History.corr_mono _ _ _ _ _ _ J1 C).
      - split; [intros m w -> A|intros m -> A].
        + destruct (F2 n w T1 A) as (w' & A' & Sw). exists w'. split; [rewrite (Fa' n T1); exact A'|]. exact (History.corr_mono _ _ _ _ _ _ J2 Sw).
        + rewrite (Fa' n T1). apply (G2 n T1 A). }
    split; [intros n w _ A; apply (proj1 (Gl n) n w eq_refl A)|]. split; [intros n _ A; apply (proj2 (Gl n) n eq_refl A)|].
    cbn [added fst snd]. split; [|split; [|split; [|auto]]].
    - intros n w _ A.
      assert (X : forall l1 l2 : list pair_t, assoc n ((fst r1 ++ l1) ++ l2) =
        match assoc n (fst r1) with Some v => Some v | None => match assoc n l1 with Some v => Some v | None => assoc n l2 end end).
      { intros l1 l2. rewrite !assoc_app. destruct (assoc n (fst r1)); reflexivity. }
      apply (eq_trans (eq_sym (X _ _))) in A. specialize (X (field_part h2 v2') (field_part h1 v1')).
      destruct (assoc n (fst r1)) eqn:Z.
      { injection A as <-. destruct (Fp (fun _ => True) n v I Z) as (w & Z' & C). exists v. split; [exact X|].
        pose proof (eq_trans (eq_sym Z) Z') as Zw. injection Zw as <-. exact (History.corr_mono _ _ _ _ _ _ J0 C). }
      destruct (list_eq_dec N.eq_dec n h1) as [->|N1].
      + rewrite (field_part_none h2 v2' h1) in X by congruence. destruct (assoc h1 (field_part h1 v1)) eqn:Z1.
        * injection A as <-. destruct (field_part_same _ _ h1 v1 v1' h1 v S1 Z1) as (w' & Y & Sw). exists w'. split; [exact (eq_trans X Y)|exact Sw].
        * rewrite field_part_none in A by congruence. discriminate.
      + rewrite (field_part_none h1 v1 n N1) in A. destruct (field_part_same _ _ h2 v2 v2' n w S2 A) as (w' & Y & Sw). rewrite Y in X. eauto.
    - intros f _. rewrite !map_app, !in_app_iff. unfold field_part. destruct (is_field h1), (is_field h2); cbn; tauto.
    - pose proof (co_opt_mono _ _ _ _ _ J0 Ko) as Ko'.
      unfold parent_part. destruct (kind_of_item h1) eqn:K1; destruct (kind_of_item h2) eqn:K2; auto;
      try (destruct (Kp2 eq_refl) as (q & ->); inversion S2; subst; cbn; auto; fail); try (destruct (Kp1 eq_refl) as (q & ->); inversion S1; subst; cbn; auto; fail).
      apply kind_parent in K1, K2. congruence. }
  assert (Both : ev_items (ev_expr (include_meaning fs file) limit64 1) [(h2, e2); (h1, e1)] (fst r1) (snd r1) x1 = Some (added h1 v1' (added h2 v2' r1), x3')).
  { change [(h2, e2); (h1, e1)] with ([(h2, e2)] ++ [(h1, e1)]). rewrite items_app. exact (eq_trans (bind_step _ _ _ _ _ Eb') Ea'). }
  apply corr_same in S1, S2.
  destruct (K _ _ True _ Both (or_intror I) C)
    as (o' & x' & Q & Q' & M' & O1 & O2 & O3 & O4).
  exists o', x'. split; [exact M'|]. cbn [added fst] in O1, O2. rewrite <- !app_assoc in O1, O2.
  unfold swapped. destruct (is_field h1) eqn:B1, (is_field h2) eqn:B2; cbn [andb];
    unfold field_part in O1, O2; rewrite ?B1, ?B2 in O1, O2; cbn [app] in O1, O2.
  - exists (fst r1), v1, v2, Q. split; [exact O1|]. apply alike_pairs; [|symmetry; exact O4]. cbn [obj_pairs]. rewrite O2, !erase_pairs_app. cbn [erase_pairs map].
    rewrite S1, S2. unfold erase_pairs in O3. rewrite O3. reflexivity.
  - apply alike_pairs; [|exact O4]. rewrite O1, O2, !erase_pairs_app. cbn [erase_pairs map]. rewrite S1. unfold erase_pairs in O3. rewrite O3. reflexivity.
  - apply alike_pairs; [|exact O4]. rewrite O1, O2, !erase_pairs_app. cbn [erase_pairs map]. rewrite S2. unfold erase_pairs in O3. rewrite O3. reflexivity.
  - apply alike_pairs; [|exact O4]. rewrite O1, O2, !erase_pairs_app. unfold erase_pairs in *. rewrite O3. reflexivity.
Qed.

Lemma kind_field_named f : kind_of_item f = KField -> ~ builtin f.
Proof. intros K B. unfold builtin in B. repeat destruct B as [<-|B]; try (vm_compute in K; discriminate); destruct B. Qed.
(** ** C64: a name and what it stands for *)
Lemma lim_up inc d fields e x v y : ev_expr inc limit64 d fields e x = Some (v, y) -> ev_expr inc no_limit d fields e x = Some (v, y).
Proof.
  intros E. rewrite <- (proj2 (shallow inc)); auto. unfold fits.
  destruct (N.eq_dec (nest_expr e) 0); auto. destruct (N.le_gt_cases (d + nest_expr e) 64); auto.
  rewrite (proj2 (too_deep inc)) in E by lia. discriminate.
Qed.
Lemma doc_up inc its x r : ev_doc inc limit64 its x = Some r -> ev_doc inc no_limit its x = Some r.
Proof.
  intros E. rewrite <- (doc_shallow inc); auto. destruct (N.le_gt_cases (nest_doc its) 63); auto. rewrite (doc_too_deep inc) in E by lia. discriminate.
Qed.

(** A definition [f: e] can be copied: [e] is include-free, defines no globals and, if [f] is a global (visible where
    other fields are), reads only globals. *)
Definition copyable (f : str) (e : expr) : Prop :=
  plain e = true /\ defines e = [] /\ (global_name f = true -> forall n, In n (reads e) -> global_name n = true) /\ f <> [c_caret].

(** The definition [f: be], evaluated at [x0] beside the fields [fl0], has the value [v]; after it, there are the fields
    [fl1] and the state [x1]. *)
Definition defined fs file (f : str) (be : expr) (base : N) (W0 Wb : wd) (fl0 : list pair_t) (x0 : est) (v : value) (y0 : est) (fl1 : list pair_t) (x1 : est) : Prop :=
  (kind_of_item f = KField \/ kind_of_item f = KGlobal) /\ (forall n, global_name n = true -> assoc n fl0 = None) /\
  corr_pairs base base W0 fl0 fl0 /\ finds base W0 (fun _ => True) (fst x0) (fst x0) /\ ids base W0 (sh_g (snd x0)) (sh_g (snd x0)) /\ wfvals (snd x0) /\
  ev_expr (include_meaning fs file) no_limit 1 fl0 be x0 = Some (v, y0) /\
  (forall n w, assoc n fl0 = Some w -> assoc n fl1 = Some w) /\ (global_name f = false -> assoc f fl1 = Some v) /\
  past x0 x1 /\ past y0 x1 /\ (global_name f = true -> assoc f (fst x1) = Some v) /\ corr base base Wb v v.
Section Name.
Variables (fs : fsys) (file : option str).
Notation inc := (include_meaning fs file).
Variables (f : str) (be : expr).
Hypothesis Cp : copyable f be.
Variables (base : N) (W0 Wb : wd) (fl0 : list pair_t) (x0 : est) (v : value) (y0 : est) (fl1 : list pair_t) (x1 : est).
Hypothesis Def : defined fs file f be base W0 Wb fl0 x0 v y0 fl1 x1.
Definition ext (fl : list pair_t) : Prop := forall n w, assoc n fl1 = Some w -> assoc n fl = Some w.
Definition both_fields (l l' : list pair_t) : Prop := global_name f = true \/ (ext l /\ ext l').
Notation all := (fun _ : str => True).

Lemma both_fields_snoc fl fl' n u u' : both_fields fl fl' -> ~ In n (map fst fl) -> ~ In n (map fst fl') ->
  both_fields (fl ++ [(n, u)]) (fl' ++ [(n, u')]).
Proof.
  assert (K : forall l u, ext l -> ext (l ++ [(n, u)])).
  { intros l q A m z Hm. apply assoc_app_l. apply A. exact Hm. }
  intros [G|[A B]] _ _; [left; exact G|right; auto].
Qed.
(** reading the name *)
Lemma read_name g n fl x : hits f g n = true -> past x1 x -> global_name f = true \/ ext fl -> ev_name fl g n x = Some (v, x).
Proof.
  destruct Def as (Kf & _ & _ & _ & _ & _ & _ & _ & X2 & _ & _ & X5 & _).
  intros Hh Hg Hf. apply andb_true_iff in Hh as [Hg1 Hk]. apply eqb_prop in Hg1. destruct (str_eqb_spec (key g n) f) as [Hk'|]; [|discriminate].
  destruct g; cbn [key] in Hk'.
  - unfold ev_name, ebind, eglobals. rewrite Hk'. rewrite (proj1 Hg _ _ (X5 Hg1)). reflexivity.
  - subst n. destruct Hf as [Hf|Hf]; [congruence|].
    rewrite name_field; [rewrite (Hf _ _ (X2 Hg1)); reflexivity|]. apply kind_field_named. destruct Kf as [K|K]; [exact K|]. apply kind_is_global in K. congruence.
Qed.
(** evaluating the expression again *)
Lemma eval_again d fl x : past x1 x -> global_name f = true \/ ext fl ->
  exists w x' W1, ev_expr inc no_limit d fl be x = Some (w, x') /\ corr base base W1 v w /\ ids base W1 (sh_g (snd y0)) (sh_g (snd x')) /\
    past x x' /\ still x x' /\ forall n, assoc n (fst x') = assoc n (fst x).
Proof.
  intros Hg Hf. destruct Cp as (P & Dn & Rg & _). destruct Def as (Kf & NA & Kp & Kg & Ki & Wf & De & X1 & X2 & X3 & X4 & X5 & Cv).
  pose proof (past_trans _ _ _ X3 Hg) as P0. destruct (past_ok _ _ Hg) as [Wx Gx].
  destruct (rel_expr fs file no_limit (fun _ _ => True) (fun _ _ _ => I) (fun _ _ _ _ => eq_refl) (fun n => In n (reads be)) (fun _ => False) base False x0 x [] be W0 1 d fl0 fl (or_introl P) I)
    with (x := x0) (y := x) (a := v) (x' := y0) as (w & x' & W1 & E & _ & Cw & Inv).
  - auto.
  - rewrite Dn. intros n [].
  - destruct Hf as [G|F].
    + intros n w Hn A. rewrite NA in A by (apply (Rg G n Hn)). discriminate.
    + intros n w Hn A. exists w. split; [apply F, X1, A|]. destruct (finds_pairs base W0 (fun _ => True) _ _ Kp n w I A) as (w' & A' & C).
      rewrite A in A'. injection A' as <-. exact C.
  - split; [|split; [intros n []|split; [apply past_self; auto; apply Ki|split; [apply past_self; auto|split; [split; [|intros []]|intros q []]]]]].
    + intros n w _ A. exists w. split; [apply P0; exact A|]. destruct (Kg n w I A) as (w' & A' & C). rewrite A in A'. injection A' as <-. exact C.
    + apply (ids_later base W0 (sh_g (snd x0)) (sh_g (snd x0))); [exact Ki|apply desc_refl, Ki|apply P0].
  - exact De.
  - exists w, x', W1. split; [exact E|]. split; [exact Cw|]. destruct Inv as (_ & _ & _ & Px & [Ai _] & _). split; [exact Ai|]. split; [exact Px|].
    split; [eapply still_expr; eauto|]. intros n.
    apply (frame_expr fs file (fun _ => False) _ _ _ _ _ _ _ ltac:(rewrite Dn; intros ? []) E). tauto.
Qed.

Section Dir.
Notation inv := (inv all all base (tab base True) wfvals x1 x1 Wb).
Notation rel := (rel all all base (tab base True) wfvals x1 x1 Wb).
Lemma inv_right W W1 x y y' : inv W x y -> ids base W1 (sh_g (snd y0)) (sh_g (snd y')) -> past y y' -> still y y' -> (forall n, assoc n (fst y') = assoc n (fst y)) ->
  inv (W ++ W1) x y'.
Proof.
  destruct Def as (_ & _ & _ & _ & _ & _ & _ & _ & _ & _ & X4 & _).
  intros (A & B & C & D & [E1 E2] & F) Ii P [S1 S2] Eq. assert (J : incl W (W ++ W1)) by (apply incl_appl, incl_refl).
  pose proof (past_trans _ _ _ X4 C) as Py. pose proof (past_trans _ _ _ D P) as Pd. destruct (past_ok _ _ C) as [_ Gx]. destruct (past_ok _ _ P) as [_ Gy].
  split; [|split; [|split; [exact C|split; [exact Pd|split; [split|]]]]].
  - intros n w _ X. rewrite Eq. apply (finds_mono base W _ _ _ _ J A); auto.
  - intros n _ X. rewrite Eq. apply B; auto.
  - apply ids_union; [eapply ids_later; [exact E1|apply desc_refl; exact Gx|apply P]|eapply ids_later; [exact Ii|apply Py|apply desc_refl; exact Gy]].
  - intros q. destruct (E2 q) as [H1 H2]. rewrite S1, S2. split; [exact (History.corr_pairs_mono _ _ _ _ _ _ J H1)|exact H2].
  - eapply incl_tran; eauto.
Qed.
Lemma inv_left W W1 x x' y : inv W x y -> ids base W1 (sh_g (snd y0)) (sh_g (snd x')) -> past x x' -> still x x' -> (forall n, assoc n (fst x') = assoc n (fst x)) ->
  inv (W ++ flip W1) x' y.
Proof.
  destruct Def as (_ & _ & _ & _ & _ & _ & _ & _ & _ & _ & X4 & _).
  intros (A & B & C & D & [E1 E2] & F) Ii P [S1 S2] Eq. assert (J : incl W (W ++ flip W1)) by (apply incl_appl, incl_refl).
  pose proof (past_trans _ _ _ X4 D) as Py. pose proof (past_trans _ _ _ C P) as Pd. destruct (past_ok _ _ D) as [_ Gx]. destruct (past_ok _ _ P) as [_ Gy].
  split; [|split; [|split; [exact Pd|split; [exact D|split; [split|]]]]].
  - intros n w _ X. rewrite Eq in X. apply (finds_mono base W _ _ _ _ J A); auto.
  - intros n _ X. rewrite Eq in X. apply B; auto.
  - apply ids_union; [eapply ids_later; [exact E1|apply P|apply desc_refl; exact Gx]|eapply ids_later; [apply ids_flip; exact Ii|apply desc_refl; exact Gy|apply Py]].
  - intros q. destruct (E2 q) as [H1 H2]. rewrite S1, S2. split; [exact (History.corr_pairs_mono _ _ _ _ _ _ J H1)|exact H2].
  - eapply incl_tran; eauto.
Qed.
Lemma fields_l fl fl' : both_fields fl fl' -> global_name f = true \/ ext fl. Proof. intros [G|[A B]]; auto. Qed.
Lemma fields_r fl fl' : both_fields fl fl' -> global_name f = true \/ ext fl'. Proof. intros [G|[A B]]; auto. Qed.
Notation co := (corr base base).
Lemma name_to_name W g n d d' fl fl' l l' : hits f g n = true -> both_fields fl fl' ->
  rel W co (ev_atom inc l d fl (AVar g n)) (ev_atom inc l' d' fl' (AVar g n)).
Proof.
  intros Hh Hj x y a x' Inv E. change (ev_name fl g n x = Some (a, x')) in E.
  pose proof Inv as (_ & _ & Hg & Hg' & _ & Ib). rewrite (read_name g n fl x Hh Hg (fields_l _ _ Hj)) in E. injection E as <- <-.
  exists v, y, W. split; [exact (read_name g n fl' y Hh Hg' (fields_r _ _ Hj))|]. split; [apply incl_refl|]. split; [|exact Inv].
  eapply History.corr_mono; [exact Ib|apply Def].
Qed.
Lemma name_to_expr W g n d d' fl fl' : hits f g n = true -> both_fields fl fl' ->
  rel W co (ev_atom inc no_limit d fl (AVar g n)) (ev_expr inc no_limit d' fl' be).
Proof.
  intros Hh Hj x y a x' Inv E. change (ev_name fl g n x = Some (a, x')) in E.
  pose proof Inv as (_ & _ & Hg & Hg' & _ & Ib). rewrite (read_name g n fl x Hh Hg (fields_l _ _ Hj)) in E. injection E as <- <-.
  destruct (eval_again d' fl' y Hg' (fields_r _ _ Hj)) as (w' & y' & W1 & E2 & C & Ii & P & S & Ey).
  exists w', y', (W ++ W1). split; [exact E2|]. split; [apply incl_appl, incl_refl|]. split; [|eapply inv_right; eauto].
  eapply History.corr_mono; [|exact C]. apply incl_appr, incl_refl.
Qed.
Lemma expr_to_name W g n d d' fl fl' l : hits f g n = true -> both_fields fl fl' ->
  rel W co (ev_expr inc limit64 d fl be) (ev_atom inc l d' fl' (AVar g n)).
Proof.
  intros Hh Hj x y a x' Inv E. apply lim_up in E.
  pose proof Inv as (_ & _ & Hg & Hg' & _ & Ib). destruct (eval_again d fl x Hg (fields_l _ _ Hj)) as (w & z & W1 & E1 & C & Ii & P & S & Ez).
  rewrite E1 in E. injection E as <- <-.
  exists v, y, (W ++ flip W1). split; [exact (read_name g n fl' y Hh Hg' (fields_r _ _ Hj))|]. split; [apply incl_appl, incl_refl|]. split; [|eapply inv_left; eauto].
  eapply History.corr_mono; [|apply corr_flip; exact C]. apply incl_appr, incl_refl.
Qed.
Lemma rel_left_expr W Q l m' d fl a : rel W Q (ev_atom inc l d fl a) m' <-> rel W Q (ev_expr inc l d fl (Ex a [])) m'.
Proof.
  split; intros R x y r z Fx E; [rewrite ev_atom_expr in E|rewrite <- ev_atom_expr in E]; exact (R _ _ _ _ Fx E).
Qed.
Lemma rel_right_expr W (Q : wd -> value -> value -> Prop) l m d fl a : rel W Q m (ev_atom inc l d fl a) <-> rel W Q m (ev_expr inc l d fl (Ex a [])).
Proof.
  split; intros R x y r z Fx E; destruct (R _ _ _ _ Fx E) as (r' & y' & W' & E' & K); exists r', y', W'; (split; [|exact K]); [rewrite ev_atom_expr|rewrite <- ev_atom_expr]; exact E'.
Qed.
End Dir.
End Name.

Lemma with_none f its : with_sub f None its = map snd its.
Proof. unfold with_sub. apply map_ext. intros [on [h e]]. rewrite sub_none. reflexivity. Qed.
Lemma names_with f b its : map fst (with_sub f b its) = map fst (map snd its).
Proof. unfold with_sub. rewrite !map_map. apply map_ext. intros [on [h e]]. reflexivity. Qed.
Section Assemble.
Variables (fs : fsys) (file : option str).
Notation inc := (include_meaning fs file).
Variables (f : str) (be : expr).
Hypothesis Cp : copyable f be.
Lemma assemble lim its1 A B sh o x : sh_vals sh = [] -> g_ok (sh_g sh) ->
  (forall d fl e x v y, ev_expr inc lim d fl e x = Some (v, y) -> ev_expr inc no_limit d fl e x = Some (v, y)) ->
  ev_doc inc lim (its1 ++ (f, be) :: A) ([], sh) = Some (o, x) ->
  (forall base W0 Wb fl0 x0 v y0 fl1 x1 par, defined fs file f be base W0 Wb fl0 x0 v y0 fl1 x1 ->
     corr_pairs base base Wb fl1 fl1 -> co_opt base Wb par par ->
     rel (fun _ => True) (fun _ => True) base (tab base True) wfvals x1 x1 Wb Wb (co_result base fl1 fl1)
       (ev_items (ev_expr inc lim 1) A fl1 par) (ev_items (ev_expr inc lim 1) B fl1 par)) ->
  exists o' x', ev_doc inc lim (its1 ++ (f, be) :: B) ([], sh) = Some (o', x') /\ alike o o'.
Proof.
  intros S0 G0 Up E K. unfold ev_doc in E. apply ebind_some in E as (r & y & E & E').
  change (its1 ++ (f, be) :: A) with (its1 ++ [(f, be)] ++ A) in E. rewrite items_app in E. apply ebind_some in E as (r1 & x1 & E1 & E).
  rewrite items_app in E. apply ebind_some in E as (r2 & x2 & E2 & E3). assert (E2' := E2).
  destruct (known_items fs file lim _ _ _ _ _ _ _ _ (known_begin sh S0 G0) E1) as (W0 & _ & K0).
  destruct (known_items fs file lim (g_next (sh_g sh)) W0 [(f, be)] (fst r1) (snd r1) x1 r2 x2) as (Wb & _ & K1).
  { destruct r1; exact K0. } { exact E2. }
  destruct K0 as (Kp0 & Ko0 & Kg0 & Ka0 & Wf0). destruct K1 as (Kp1 & Ko1 & Kg1 & Ka1 & Wf1).
  apply one_item in E2 as (v & y0 & E2 & Sv). apply stores_added in Sv as (-> & S1 & S2 & S3 & S4 & Ex2).
  destruct Cp as (P & Dn & Rg & Nc). assert (Gx : g_ok (sh_g (snd x1))) by apply Ka0.
  pose proof (goes_expr fs file _ _ _ _ _ _ _ E2 Wf0 Gx) as Py.
  assert (Fr : forall n, assoc n (fst y0) = assoc n (fst x1)).
  { intros n. apply (frame_expr fs file (fun _ => False) _ _ _ _ _ _ _ ltac:(rewrite Dn; intros ? []) E2). tauto. }
  assert (Kf : kind_of_item f = KField \/ kind_of_item f = KGlobal).
  { destruct (kind_of_item f) eqn:Kd; auto; [|contradiction]. apply kind_parent in Kd. contradiction. }
  assert (NA : forall n, global_name n = true -> assoc n (fst r1) = None).
  { intros n G. apply items_shape in E1 as (new & En & Nn). apply assoc_none. rewrite En. cbn [app]. intros X. rewrite Nn in X.
    apply filter_In in X as [_ X]. destruct n as [|c n]; [discriminate|]. cbn in G, X. rewrite G in X. discriminate. }
  assert (Pz : past y0 x2).
  { destruct (past_ok _ _ Py) as [Wy Gy]. rewrite Ex2. destruct (global_name f) eqn:G; [|apply past_self; auto].
    split; [|split; [apply desc_refl; exact Gy|exact Wy]]. intros n w X. cbn [fst assoc]. destruct (str_eqb_spec f n) as [<-|]; [|exact X].
    rewrite Fr, S2 in X; [discriminate|]. destruct Kf as [Kf|Kf]; [apply field_not_global in Kf; congruence|exact Kf]. }
  assert (Df : defined fs file f be (g_next (sh_g sh)) W0 Wb (fst r1) x1 v y0 (fst (added f v r1)) x2).
  { split; [exact Kf|]. split; [exact NA|]. split; [exact Kp0|]. split; [exact Kg0|]. split; [apply Ka0|]. split; [exact Wf0|]. split; [apply (Up _ _ _ _ _ _ E2)|].
    split; [intros n w X; cbn [added fst]; apply assoc_app_l; exact X|].
    assert (Hf : global_name f = false -> assoc f (fst (added f v r1)) = Some v).
    { intros G. destruct Kf as [Kf|Kf]; [|apply kind_is_global in Kf; congruence]. cbn [added fst]. unfold field_part, is_field. rewrite Kf.
      refine (eq_trans (assoc_app_r f (fst r1) [(f, v)] (S4 Kf)) _). cbn [assoc]. rewrite str_eqb_refl. reflexivity. }
    assert (Hg : global_name f = true -> assoc f (fst x2) = Some v).
    { intros G. rewrite Ex2, G. cbn [fst assoc]. rewrite str_eqb_refl. reflexivity. }
    split; [exact Hf|]. split; [eapply past_trans; eauto|]. split; [exact Pz|]. split; [exact Hg|].
    destruct (global_name f) eqn:G.
    - destruct (Kg1 f v I (Hg eq_refl)) as (w & X & C). rewrite (Hg eq_refl) in X. injection X as <-. exact C.
    - destruct (finds_pairs _ _ (fun _ => True) _ _ Kp1 f v I (Hf eq_refl)) as (w & X & C). pose proof (eq_trans (eq_sym (Hf eq_refl)) X) as Y. injection Y as <-. exact C. }
  destruct (K _ _ _ _ _ _ _ _ _ (snd (added f v r1)) Df Kp1 Ko1 x2 x2 r y) as (r' & y' & W' & E3' & _ & (new & new' & N1 & N2 & N3 & N4) & _).
  { assert (G2 : g_ok (sh_g (snd x2))) by apply Ka1.
    split; [exact Kg1|]. split; [intros n _ Q; exact Q|]. split; [apply past_self; auto|]. split; [apply past_self; auto|]. split; [exact Ka1|apply incl_refl]. }
  { exact E3. }
  destruct y' as [gl' sh']. exists (MkObj (g_next (sh_g sh')) (fst r') (snd r')). eexists. split.
  - unfold ev_doc. change (its1 ++ (f, be) :: B) with (its1 ++ [(f, be)] ++ B). erewrite bind_step.
    2:{ rewrite items_app. erewrite bind_step; [|exact E1]. rewrite items_app. erewrite bind_step; [|exact E2']. exact E3'. }
    reflexivity.
  - apply fresh_ret in E' as ->. apply alike_pairs; cbn [obj_pairs obj_parent]; [|eapply co_opt_erase; eauto].
    rewrite N1, N2, !erase_pairs_app, (corr_erase_pairs _ _ _ _ N3). reflexivity.
Qed.
End Assemble.

(** From the name to the expression; the nesting must stay within the limit. *)
Lemma inlined its1 f be its : copyable f be ->
  nest_doc (its1 ++ (f, be) :: with_sub f (Some be) its) <= 63 ->
  becomes alike (its1 ++ (f, be) :: map snd its) (its1 ++ (f, be) :: with_sub f (Some be) its).
Proof.
  intros Cp Nd fs file sh o x S0 G0 M. unfold meaning in *. rewrite doc_shallow by exact Nd. apply doc_up in M.
  apply (assemble fs file f be Cp no_limit its1 (map snd its) _ sh o x); auto.
  intros base W0 Wb fl0 x0 v y0 fl1 x1 par Df Kp Ko. rewrite <- (with_none f its).
  apply rel_some_items with (ge := fun _ _ => True) (V := True) (J := both_fields f fl1); auto using tab_g; try (intros; eapply tab_mono; eauto; fail); try (intros; apply rel_inc; exact I).
  - apply both_fields_snoc.
  - intros G l l'. left. exact G.
  - intros W g n d d' l l' Hh Hj _. split; cbn [whole operand].
    + apply rel_left_expr. eapply name_to_expr; eauto.
    + destruct be as [a [|q t]] eqn:Eb; [|eapply name_to_name; eauto]. rewrite rel_right_expr. eapply name_to_expr; eauto.
  - apply finds_pairs. exact Kp.
  - left. right. split; intros n w X; exact X.
Qed.
(** From the expression to the name. *)
Lemma named its1 f be its : copyable f be ->
  becomes alike (its1 ++ (f, be) :: with_sub f (Some be) its) (its1 ++ (f, be) :: map snd its).
Proof.
  intros Cp fs file sh o x S0 G0 M. unfold meaning in *.
  apply (assemble fs file f be Cp limit64 its1 (with_sub f (Some be) its) _ sh o x); auto using lim_up.
  intros base W0 Wb fl0 x0 v y0 fl1 x1 par Df Kp Ko. rewrite <- (with_none f its).
  apply rel_some_items with (ge := ge64) (V := True) (J := both_fields f fl1); try exact ge64_succ; try exact lim64_down; auto using tab_g; try (intros; eapply tab_mono; eauto; fail); try (intros; apply rel_inc; exact I).
  - apply both_fields_snoc.
  - intros G l l'. left. exact G.
  - intros W g n d d' l l' Hh Hj _. split; cbn [whole operand].
    + apply rel_right_expr. eapply expr_to_name; eauto.
    + destruct be as [a [|q t]] eqn:Eb; [|eapply name_to_name; eauto]. rewrite rel_left_expr. eapply expr_to_name; eauto.
  - unfold ge64. lia.
  - apply finds_pairs. exact Kp.
  - left. right. split; intros n w X; exact X.
Qed.

(** ** The theorems *)
Lemma loaded_any fs g text o : from_str fs g text = Some (OOk o) -> wf_obj any_names o.
Proof. intros E. apply any_good. eapply loaded_wf. left. eauto. Qed.
Lemma alike_eq o o' : wf_obj any_names o -> alike o o' -> obj_eqb o' o = true.
Proof. intros W A. apply erase_eqb; auto. Qed.
Lemma alike_sym o o' : alike o o' -> alike o' o. Proof. unfold alike. auto. Qed.
Lemma erase_get : forall o o' f, alike o o' -> option_map erase (obj_get o f) = option_map erase (obj_get o' f).
Proof.
  fix IH 1. intros [i ps p] [j qs q] f A. unfold alike in A. cbn [erase_obj] in A. injection A as Ap Aq. cbn [obj_get].
  assert (Ep : option_map erase (assoc f ps) = option_map erase (assoc f qs)).
  { clear - Ap. revert qs Ap. induction ps as [|[h v] ps IH]; intros [|[k w] qs] E; try discriminate; [reflexivity|].
    cbn in E. injection E as -> Ev El. cbn [assoc]. destruct (str_eqb k f); [cbn; f_equal; exact Ev|apply IH; exact El]. }
  destruct (assoc f ps) eqn:E1, (assoc f qs) eqn:E2; cbn in Ep; try discriminate; [exact Ep|].
  destruct p as [p|], q as [q|]; cbn in Aq; try discriminate; [|reflexivity]. injection Aq as Aq. apply IH. exact Aq.
Qed.

(** C62.  Two neighbouring items of which neither writes what the other uses may change places; [text] and [text'] are
    any two texts (in whatever layout) of the two documents. *)
Theorem C62_str fs g its1 h1 e1 h2 e2 its3 text text' o :
  r_doc (its1 ++ [(h1, e1); (h2, e2)] ++ its3) text -> r_doc (its1 ++ [(h2, e2); (h1, e1)] ++ its3) text' ->
  g_ok g -> independent h1 e1 h2 e2 -> plain e1 = true \/ plain e2 = true ->
  from_str fs g text = Some (OOk o) -> exists o', from_str fs g text' = Some (OOk o') /\ swapped h1 h2 o o'.
Proof. intros R R' G I P E. exact (becomes_str _ _ _ fs g text text' o G (reorder its1 h1 e1 h2 e2 its3 I P) R R' E). Qed.
Theorem C62_file fs fs' g path i fe i' fe' c its1 h1 e1 h2 e2 its3 text text' o : only_differs c fs fs' ->
  fs_entry fs path = Some (i, fe) -> fe_read fe = inl text -> fe_canon fe = Some c ->
  fs_entry fs' path = Some (i', fe') -> fe_read fe' = inl text' ->
  r_doc (its1 ++ [(h1, e1); (h2, e2)] ++ its3) text -> r_doc (its1 ++ [(h2, e2); (h1, e1)] ++ its3) text' ->
  g_ok g -> independent h1 e1 h2 e2 -> plain e1 = true \/ plain e2 = true ->
  from_file fs g path = Some (OOk o) -> exists o', from_file fs' g path = Some (OOk o') /\ swapped h1 h2 o o'.
Proof. intros D En Rd Fc En' Rd' R R' G I P E. exact (becomes_file _ _ _ fs fs' g path i fe i' fe' c text text' o G (reorder its1 h1 e1 h2 e2 its3 I P) D En Rd Fc En' Rd' R R' E). Qed.
(** The order of fields is seen by [==] (and by iteration), not by [get]. *)
Theorem C62_get h1 h2 o o' : h1 <> h2 -> swapped h1 h2 o o' ->
  forall f, option_map erase (obj_get o f) = option_map erase (obj_get o' f).
Proof.
  intros N S f. unfold swapped in S. destruct (is_field h1 && is_field h2); [|apply erase_get; exact S].
  destruct S as (b & v1 & v2 & a & Ep & A). apply alike_sym in A. rewrite <- (erase_get _ _ f A).
  destruct o as [i ps p]. cbn [obj_pairs obj_parent] in *. subst ps. cbn [obj_get]. rewrite !assoc_app. cbn [assoc].
  destruct (assoc f b); [reflexivity|]. destruct (str_eqb_spec h1 f), (str_eqb_spec h2 f); try reflexivity. congruence.
Qed.
Lemma keys_eqb : forall ps qs, list_eqb (fun x y => match x, y with (f, v), (g, w) => str_eqb f g && value_eqb v w end) ps qs = true ->
  map fst ps = map fst qs.
Proof.
  induction ps as [|[f v] ps IH]; intros [|[g w] qs] E; try discriminate; [reflexivity|]. cbn in E.
  apply andb_true_iff in E as [E1 E2]. apply andb_true_iff in E1 as [E0 _]. destruct (str_eqb_spec f g) as [->|]; [|discriminate].
  cbn. f_equal. auto.
Qed.
Lemma eqb_keys o o' : obj_eqb o o' = true -> map fst (obj_pairs o) = map fst (obj_pairs o').
Proof.
  destruct o as [i ps p], o' as [j qs q]. cbn [obj_eqb obj_pairs]. destruct p, q; try discriminate.
  - destruct (negb _); [discriminate|]. apply keys_eqb.
  - apply keys_eqb.
Qed.
Lemma alike_keys o o' : alike o o' -> map fst (obj_pairs o) = map fst (obj_pairs o').
Proof.
  destruct o as [i ps p], o' as [j qs q]. unfold alike. cbn [erase_obj obj_pairs]. intros E. injection E as Ep _. clear - Ep.
  revert qs Ep. induction ps as [|[f v] ps IH]; intros [|[g w] qs] E; try discriminate; [reflexivity|]. cbn in *. injection E as -> _ E. f_equal. auto.
Qed.
Theorem C62_eq h1 h2 o o' : wf_obj any_names o -> h1 <> h2 -> swapped h1 h2 o o' ->
  obj_eqb o' o = negb (is_field h1 && is_field h2).
Proof.
  intros W N S. unfold swapped in S. destruct (is_field h1 && is_field h2); cbn [negb]; [|apply alike_eq; auto].
  destruct S as (b & v1 & v2 & a & Ep & A). apply not_true_is_false. intros E. apply eqb_keys in E. rewrite (alike_keys _ _ A), Ep in E.
  cbn [obj_pairs] in E. rewrite !map_app in E. cbn [map fst] in E. apply app_inv_head in E. injection E as E _. congruence.
Qed.

(** C63.  An item whose name (and whose globals) no later item reads can be taken out: for a global the data is the same,
    for a field exactly that field is missing. *)
Theorem C63_global_str fs g its1 h e its3 text text' o : r_doc (its1 ++ [(h, e)] ++ its3) text -> r_doc (its1 ++ its3) text' ->
  global_name h = true -> g_ok g -> unread h e its3 -> plain e = true \/ item_plain its3 = true ->
  from_str fs g text = Some (OOk o) -> exists o', from_str fs g text' = Some (OOk o') /\ alike o o' /\ obj_eqb o' o = true.
Proof.
  intros R R' G Gg Un P E. assert (Kh : kind_of_item h <> KParent).
  { destruct h as [|z h]; [discriminate|]. cbn [global_name] in G. apply N.eqb_eq in G as ->. cbn. destruct h; cbn; discriminate. }
  destruct (becomes_str _ _ _ fs g text text' o Gg (dropped its1 h e its3 Kh Un P) R R' E) as (o' & E' & A). rewrite G in A.
  exists o'. split; [exact E'|]. split; [exact A|]. apply alike_eq; auto. eapply loaded_any; eauto.
Qed.
Theorem C63_field_str fs g its1 h e its3 text text' o : r_doc (its1 ++ [(h, e)] ++ its3) text -> r_doc (its1 ++ its3) text' ->
  is_field h = true -> g_ok g -> unread h e its3 -> plain e = true \/ item_plain its3 = true ->
  from_str fs g text = Some (OOk o) -> exists o', from_str fs g text' = Some (OOk o') /\ removed h o o'.
Proof.
  intros R R' G Gg Un P E. unfold is_field in G. destruct (kind_of_item h) eqn:K; try discriminate.
  assert (Kh : kind_of_item h <> KParent) by congruence.
  destruct (becomes_str _ _ _ fs g text text' o Gg (dropped its1 h e its3 Kh Un P) R R' E) as (o' & E' & A).
  rewrite (field_not_global h K) in A. eauto.
Qed.
Theorem C63_file fs fs' g path i fe i' fe' c its1 h e its3 text text' o : only_differs c fs fs' ->
  fs_entry fs path = Some (i, fe) -> fe_read fe = inl text -> fe_canon fe = Some c ->
  fs_entry fs' path = Some (i', fe') -> fe_read fe' = inl text' ->
  r_doc (its1 ++ [(h, e)] ++ its3) text -> r_doc (its1 ++ its3) text' ->
  kind_of_item h <> KParent -> g_ok g -> unread h e its3 -> plain e = true \/ item_plain its3 = true ->
  from_file fs g path = Some (OOk o) -> exists o', from_file fs' g path = Some (OOk o') /\ if global_name h then alike o o' else removed h o o'.
Proof.
  intros D En Rd Fc En' Rd' R R' K Gg Un P E.
  exact (becomes_file _ _ _ fs fs' g path i fe i' fe' c text text' o Gg (dropped its1 h e its3 K Un P) D En Rd Fc En' Rd' R R' E).
Qed.

(** C64.  A name stands for the value it was defined with.  [its] marks which of the later items are changed: in those,
    the name [f] and the expression [be] (its definition) can be exchanged. *)
Theorem C64_name_str fs g its1 f be its text text' o :
  r_doc (its1 ++ (f, be) :: with_sub f (Some be) its) text -> r_doc (its1 ++ (f, be) :: map snd its) text' ->
  g_ok g -> copyable f be ->
  from_str fs g text = Some (OOk o) -> exists o', from_str fs g text' = Some (OOk o') /\ alike o o' /\ obj_eqb o' o = true.
Proof.
  intros R R' Gg C E. destruct (becomes_str _ _ _ fs g text text' o Gg (named its1 f be its C) R R' E) as (o' & E' & A).
  exists o'. repeat split; auto. apply alike_eq; auto. eapply loaded_any; eauto.
Qed.
Theorem C64_inline_str fs g its1 f be its text text' o :
  r_doc (its1 ++ (f, be) :: map snd its) text -> r_doc (its1 ++ (f, be) :: with_sub f (Some be) its) text' ->
  g_ok g -> copyable f be -> nest_doc (its1 ++ (f, be) :: with_sub f (Some be) its) <= 63 ->
  from_str fs g text = Some (OOk o) -> exists o', from_str fs g text' = Some (OOk o') /\ alike o o' /\ obj_eqb o' o = true.
Proof.
  intros R R' Gg C N E. destruct (becomes_str _ _ _ fs g text text' o Gg (inlined its1 f be its C N) R R' E) as (o' & E' & A).
  exists o'. repeat split; auto. apply alike_eq; auto. eapply loaded_any; eauto.
Qed.
Theorem C64_name_file fs fs' g path i fe i' fe' c its1 f be its text text' o : only_differs c fs fs' ->
  fs_entry fs path = Some (i, fe) -> fe_read fe = inl text -> fe_canon fe = Some c ->
  fs_entry fs' path = Some (i', fe') -> fe_read fe' = inl text' ->
  r_doc (its1 ++ (f, be) :: with_sub f (Some be) its) text -> r_doc (its1 ++ (f, be) :: map snd its) text' ->
  g_ok g -> copyable f be ->
  from_file fs g path = Some (OOk o) -> exists o', from_file fs' g path = Some (OOk o') /\ alike o o'.
Proof.
  intros D En Rd Fc En' Rd' R R' Gg C E.
  exact (becomes_file _ _ _ fs fs' g path i fe i' fe' c text text' o Gg (named its1 f be its C) D En Rd Fc En' Rd' R R' E).
Qed.
Theorem C64_inline_file fs fs' g path i fe i' fe' c its1 f be its text text' o : only_differs c fs fs' ->
  fs_entry fs path = Some (i, fe) -> fe_read fe = inl text -> fe_canon fe = Some c ->
  fs_entry fs' path = Some (i', fe') -> fe_read fe' = inl text' ->
  r_doc (its1 ++ (f, be) :: map snd its) text -> r_doc (its1 ++ (f, be) :: with_sub f (Some be) its) text' ->
  g_ok g -> copyable f be -> nest_doc (its1 ++ (f, be) :: with_sub f (Some be) its) <= 63 ->
  from_file fs g path = Some (OOk o) -> exists o', from_file fs' g path = Some (OOk o') /\ alike o o'.
Proof.
  intros D En Rd Fc En' Rd' R R' Gg C N E.
  exact (becomes_file _ _ _ fs fs' g path i fe i' fe' c text text' o Gg (inlined its1 f be its C N) D En Rd Fc En' Rd' R R' E).
Qed.
End P.

(** ** Concrete cases *)
Section Ex.
#[local] Instance ascii : Unicode := {| u_alpha := fun _ => false; u_debug := fun c => [c] |}.
Definition nm (n : str) : expr := Ex (AVar false n) [].
Definition gnm (n : str) : expr := Ex (AVar true n) [].
Definition one : expr := Ex (ANum (lit "1")) [].
(** x: <"b"> @g: [1] a: 1 b: a + 1 c: (a @g) d: {q: @g r: {s: [@g]}} *)
Definition xx : str * expr := (lit "x", Ex (AInc (Ex (AStr [SPlain 98]) []) None) []).
Definition gg : str * expr := (lit "@g", Ex (AArr [one]) []).
Definition aa : str * expr := (lit "a", one).
Definition bb : str * expr := (lit "b", Ex (AVar false (lit "a")) [(BPlus, ANum (lit "1"))]).
Definition cc : str * expr := (lit "c", Ex (ATup [nm (lit "a"); gnm (lit "g")]) []).
Definition dd : str * expr := (lit "d", Ex (AObj [(lit "q", gnm (lit "g")); (lit "r", Ex (AObj [(lit "s", Ex (AArr [gnm (lit "g")]) [])]) [])]) []).
Definition w2 : fsys := world [] text_b [].
Definition doc1 : list (str * expr) := [xx; gg; aa; bb; cc; dd].

(** z: {u: @g w: <"b">} *)
Definition zz : str * expr := (lit "z", Ex (AObj [(lit "u", gnm (lit "g")); (lit "w", snd xx)]) []).
Example C62_ex : exists o o', r_doc doc1 (show_items doc1) /\ r_doc [xx; gg; aa; cc; bb; dd] (show_items [xx; gg; aa; cc; bb; dd]) /\
  independent (fst bb) (snd bb) (fst cc) (snd cc) /\ plain (snd bb) = true /\
  from_str w2 g0 (show_items doc1) = Some (OOk o) /\ from_str w2 g0 (show_items [xx; gg; aa; cc; bb; dd]) = Some (OOk o') /\
  obj_eqb o' o = false /\ map fst (obj_pairs o') = [lit "x"; lit "a"; lit "c"; lit "b"; lit "d"].
Proof.
  eexists. eexists. split; [apply show_doc; reflexivity|]. split; [apply show_doc; reflexivity|].
  split; [split; intros n A B; cbn in A, B; intuition (subst; discriminate)|].
  split; [reflexivity|]. split; [vm_compute; reflexivity|]. split; [vm_compute; reflexivity|].
  split; vm_compute; reflexivity.
Qed.
(** an include and a global, before another include of the same file *)
Example C62_ex_include : exists o o', g_ok g0 /\ independent (fst xx) (snd xx) (fst gg) (snd gg) /\ plain (snd xx) = false /\ plain (snd gg) = true /\ item_plain [zz] = false /\
  from_str w2 g0 (show_items [xx; gg; zz]) = Some (OOk o) /\ from_str w2 g0 (show_items [gg; xx; zz]) = Some (OOk o') /\
  is_field (fst xx) && is_field (fst gg) = false /\ obj_eqb o' o = true.
Proof.
  eexists. eexists. split; [split; [intros [] ? H; discriminate H|]; split; [intros [] ? ? H; discriminate H|intros ? []]|]. split; [split; intros n A B; cbn in A, B; intuition (subst; discriminate)|].
  split; [reflexivity|]. split; [reflexivity|]. split; [reflexivity|]. split; [vm_compute; reflexivity|]. split; [vm_compute; reflexivity|].
  split; vm_compute; reflexivity.
Qed.
Example C62_ex_global : independent (fst gg) (snd gg) (fst aa) (snd aa) /\
  is_field (fst gg) && is_field (fst aa) = false.
Proof. split; [split; intros n A B; cbn in A, B; intuition (subst; discriminate)|]. reflexivity. Qed.
Example C63_ex_global : unread (fst gg) (snd gg) [aa; bb; xx] /\ ~ unread (fst gg) (snd gg) [aa; bb; cc; dd] /\ plain (snd gg) = true /\
  exists o, from_str w2 g0 (show_items [gg; aa; bb; xx]) = Some (OOk o).
Proof.
  split; [split; [intros A; cbn in A; intuition discriminate|intros n []]|]. split; [intros [A _]; apply A; vm_compute; auto|].
  split; [reflexivity|]. eexists. vm_compute. reflexivity.
Qed.
Example C63_ex_field : exists o o', unread (fst bb) (snd bb) [cc; dd] /\ is_field (fst bb) = true /\
  from_str w2 g0 (show_items doc1) = Some (OOk o) /\ from_str w2 g0 (show_items [xx; gg; aa; cc; dd]) = Some (OOk o') /\ removed (fst bb) o o'.
Proof.
  eexists. eexists. split; [split; [intros A; cbn in A; intuition discriminate|intros n []]|]. split; [reflexivity|].
  split; [vm_compute; reflexivity|]. split; [vm_compute; reflexivity|].
  match goal with |- removed _ (MkObj _ [?x; ?a; ?b; ?c; ?d] _) _ => exists [x; a], (snd b), [c; d] end. split; reflexivity.
Qed.
(** @g in c, d and z, beside an include *)
Definition its64 : list (bool * (str * expr)) := [(false, aa); (false, bb); (true, cc); (true, dd); (true, zz)].
Example C64_ex : copyable (fst gg) (snd gg) /\ item_plain (map snd its64) = false /\
  nest_doc ([xx] ++ gg :: with_sub (fst gg) (Some (snd gg)) its64) <= 63 /\
  with_sub (fst gg) (Some (snd gg)) its64 =
    [aa; bb; (lit "c", Ex (ATup [nm (lit "a"); snd gg]) []);
     (lit "d", Ex (AObj [(lit "q", snd gg); (lit "r", Ex (AObj [(lit "s", Ex (AArr [snd gg]) [])]) [])]) []);
     (lit "z", Ex (AObj [(lit "u", snd gg); (lit "w", snd xx)]) [])] /\
  r_doc ([xx] ++ gg :: with_sub (fst gg) (Some (snd gg)) its64) (show_items ([xx] ++ gg :: with_sub (fst gg) (Some (snd gg)) its64)) /\
  exists o, from_str w2 g0 (show_items ([xx] ++ gg :: map snd its64)) = Some (OOk o).
Proof.
  split; [repeat split; auto; try discriminate; intros _ n []|]. split; [reflexivity|]. split; [vm_compute; discriminate|].
  split; [reflexivity|]. split; [apply show_doc; reflexivity|]. eexists. vm_compute. reflexivity.
Qed.
(** [copyable] is needed: with [@g: a], the name [@g] in {a: 2 b: @g} is 1, its definition there is 2. *)
Definition esc (inner : expr) : list (str * expr) :=
  [aa; (lit "@g", nm (lit "a")); (lit "e", Ex (AObj [(lit "a", Ex (ANum (lit "2")) []); (lit "b", inner)]) [])].
Theorem C64_any_definition_refuted : exists o o', from_str w2 g0 (show_items (esc (gnm (lit "g")))) = Some (OOk o) /\
  from_str w2 g0 (show_items (esc (nm (lit "a")))) = Some (OOk o') /\ obj_eqb o' o = false.
Proof. eexists. eexists. split; [vm_compute; reflexivity|]. split; [vm_compute; reflexivity|]. vm_compute. reflexivity. Qed.
End Ex.
