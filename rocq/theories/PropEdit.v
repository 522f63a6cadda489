(** * PropEdit: an edit reaches only what uses it (C75). *)
From Verif Require Export EditEval PropAfresh.
From Verif Require Import AfreshConv Complete PropRefactor Render PropRound PropHistory PropNames.
From Coq Require String.
Import String.StringSyntax.
Open Scope N_scope.

Section P.
Context `{U : Unicode}.
Lemma afresh_globals fs ar n file k p x v y : afresh fs ar n file k p x = Some (v, y) -> fst y = fst x.
Proof.
  intros E. destruct n; cbn [afresh] in E; [discriminate|]. destruct (canon fs (target file p)); [|discriminate]. destruct (ar s); [|discriminate].
  destruct (kind_eqb _ _); [|discriminate]. unfold apart in E. destruct (ev_contents _ c ([], snd x)) as [[w z]|]; [|discriminate]. injection E as _ <-. reflexivity.
Qed.

(** ** Without one of the files *)
Definition without (c : str) (ar : archive) : archive := fun full => if str_eqb full c then None else ar full.
Section Without.
Variables (fs : fsys) (ar : archive).
Hypothesis Coh : coherent fs.
Definition good (x y : est) : Prop := x = y /\ g_ok (sh_g (snd x)).
Lemma afresh_ok n file k p x v y : afresh fs ar n file k p x = Some (v, y) -> g_ok (sh_g (snd x)) -> g_ok (sh_g (snd y)).
Proof.
  intros E G. destruct x as [gl h]. destruct (pure_serves fs ar Coh n file file (fun _ => eq_refl) [] gl gl h h k p v y (ids_nil _ _ G G) I E)
    as (_ & v' & h1 & W & _ & _ & _ & _ & _ & D & _). apply D.
Qed.
Lemma good_sim inc inc' : (forall k p x v y, inc k p x = Some (v, y) -> g_ok (sh_g (snd x)) -> inc' k p x = Some (v, y) /\ g_ok (sh_g (snd y))) -> simrel inc inc' good.
Proof.
  intros H. split; [intros ? ? [-> _]; auto|]. split; [intros ? ? [-> _]; auto|].
  split; [intros ? ? [-> G]; split; [reflexivity|]; apply ok_bump; exact G|].
  split; [intros ? ? k [-> G] N; split; [reflexivity|]; apply ok_sent; auto|].
  split; [intros ? ? f v [-> G]; split; [reflexivity|exact G]|].
  intros k p x y v x' [<- G] E. destruct (H k p x v x' E G) as [A B]. exists x'. split; [exact A|]. split; [reflexivity|exact B].
Qed.
Lemma contents_good inc inc' c x r : (forall k p x v y, inc k p x = Some (v, y) -> g_ok (sh_g (snd x)) -> inc' k p x = Some (v, y) /\ g_ok (sh_g (snd y))) ->
  g_ok (sh_g (snd x)) -> ev_contents inc c x = Some r -> ev_contents inc' c x = Some r.
Proof.
  intros H G E. destruct r as [v y]. destruct (proj1 (nat_contents c) inc inc' good (good_sim inc inc' H) x x v y (conj eq_refl G) E) as (y' & E' & <- & _). exact E'.
Qed.
Lemma afresh_without c n : (forall m, (m < n)%nat -> ~ runs fs ar m c) -> forall m, (m <= n)%nat -> forall file k p x v y,
  afresh fs ar m file k p x = Some (v, y) -> g_ok (sh_g (snd x)) -> afresh fs (without c ar) m file k p x = Some (v, y) /\ g_ok (sh_g (snd y)).
Proof.
  intros Min. induction m as [|m IH]; [discriminate|]. intros L file k p x v y E G. split; [|eapply afresh_ok; eauto]. cbn [afresh] in *.
  destruct (canon fs (target file p)) as [full|] eqn:Ef; [|discriminate]. destruct (ar full) as [ct|] eqn:Ea; [|discriminate].
  destruct (kind_eqb k (kind_in ct)) eqn:K; [|discriminate]. unfold apart in E.
  destruct (ev_contents (afresh fs ar m (Some (target file p))) ct ([], snd x)) as [[w z]|] eqn:Ec; [|discriminate].
  change (without c ar full) with (if str_eqb full c then None else ar full). destruct (str_eqb_spec full c) as [->|Ne].
  { exfalso. apply (Min m); [lia|]. exists (target file p), ct, (snd x), (w, z). auto. }
  rewrite Ea, K. unfold apart.
  rewrite (contents_good (afresh fs ar m (Some (target file p))) (afresh fs (without c ar) m (Some (target file p))) ct ([], snd x) (w, z)); [exact E| |exact G|exact Ec].
  intros k' p' x' v' y' E' G'. apply IH; auto. lia.
Qed.
End Without.
Lemma afresh_same fs fs' ar ar' c : (forall p, canon fs' p = canon fs p) -> (forall f, f <> c -> ar' f = ar f) ->
  forall n file k p x r, afresh fs' (without c ar') n file k p x = Some r -> afresh fs (without c ar) n file k p x = Some r.
Proof.
  intros Hc Ha. induction n as [|n IH]; intros file k p x r E; [discriminate|]. cbn [afresh] in *. rewrite Hc in E.
  destruct (canon fs (target file p)) as [full|]; [|discriminate]. change (without c ar full) with (if str_eqb full c then None else ar full). change (without c ar' full) with (if str_eqb full c then None else ar' full) in E.
  destruct (str_eqb_spec full c) as [Eq|Ne]; [discriminate|]. rewrite Ha in E by exact Ne. destruct (ar full) as [ct|]; [|discriminate].
  destruct (kind_eqb k (kind_in ct)); [|discriminate]. unfold apart in *.
  destruct (ev_contents (afresh fs' (without c ar') n (Some (target file p))) ct ([], snd x)) as [z|] eqn:Ec; [|discriminate].
  rewrite (contents_more _ (afresh fs (without c ar) n (Some (target file p))) ct _ z (IH _) Ec). exact E.
Qed.

(** ** Data *)
Lemma erase_others T ps : erase_pairs (others T ps) = others T (erase_pairs ps).
Proof.
  induction ps as [|[f v] ps IH]; [reflexivity|]. unfold others, erase_pairs in *. cbn [filter map fst]. destruct (negb _); cbn [map]; [f_equal|]; exact IH.
Qed.
Lemma same_but_alike T o o' p p' : same_but T o o' -> alike o p -> alike o' p' -> same_but T p p'.
Proof.
  intros [A B] H H'. unfold alike in *. destruct o as [i ps q], o' as [i' ps' q'], p as [j rs s], p' as [j' rs' s']. unfold same_but in *. cbn [obj_pairs obj_parent erase_obj] in *.
  change (MkObj 0 (erase_pairs ps) (option_map erase_obj q) = MkObj 0 (erase_pairs rs) (option_map erase_obj s)) in H.
  change (MkObj 0 (erase_pairs ps') (option_map erase_obj q') = MkObj 0 (erase_pairs rs') (option_map erase_obj s')) in H'.
  injection H as H1 H2. injection H' as H1' H2'. rewrite !erase_others in *. rewrite <- H1, <- H1', <- H2, <- H2'. auto.
Qed.

(** C75.  Two versions of a text, both of which load (in whatever process, in whatever layout): but for the fields that the
    edit reaches, the data is the same. *)
Theorem C75_str fs ar g g' l text text' o o' : coherent fs -> describes fs ar -> g_ok g -> g_ok g' ->
  r_doc (before l) text -> r_doc (after l) text' ->
  from_str fs g text = Some (OOk o) -> from_str fs g' text' = Some (OOk o') ->
  respects ar (sh_log (snd (parse_obj_str fs g text))) -> respects ar (sh_log (snd (parse_obj_str fs g' text'))) ->
  same_but (reached [] l) o o'.
Proof.
  intros Coh Des G G' R R' E E' Rs Rs'.
  destruct (C67_str_back fs ar g _ text o Coh Des G R E Rs) as (p & x & M & Al).
  destruct (C67_str_back fs ar g' _ text' o' Coh Des G' R' E' Rs') as (p' & x' & M' & Al').
  apply (same_but_alike _ p p'); auto.
  eapply (reach_doc _ (pure_serves fs ar Coh _ None None (fun _ => eq_refl)) (afresh_globals fs ar _ None)); [| |exact M|exact M']; auto.
Qed.
(** Without includes there is nothing to be known about files. *)
Theorem C75_plain fs fs' g g' l text text' o o' : g_ok g -> g_ok g' -> r_doc (before l) text -> r_doc (after l) text' ->
  item_plain (before l) = true -> item_plain (after l) = true ->
  from_str fs g text = Some (OOk o) -> from_str fs' g' text' = Some (OOk o') -> same_but (reached [] l) o o'.
Proof.
  intros G G' R R' P P' E E'. apply (str_ok fs g _ text R) in E as [x M]. apply (str_ok fs' g' _ text' R') in E' as [x' M'].
  assert (Pl : forall inc its s, item_plain its = true -> ev_doc inc limit64 its s = ev_doc nofile limit64 its s).
  { intros inc its s Pi. unfold ev_doc, ebind. rewrite (plain_items_inc inc nofile limit64 1 its Pi). reflexivity. }
  unfold str_meaning, meaning in M, M'. rewrite Pl in M by exact P. rewrite Pl in M' by exact P'.
  eapply (reach_doc nofile); [| | | |exact M|exact M']; [intros ? ? ? ? ? ? ? ? ? _ _ X; discriminate X|discriminate|exact G|exact G'].
Qed.
(** The same for a file of a project: all other files are the same in both versions. *)
Theorem C75_file fs fs' ar ar' g g' path full l o o' : coherent fs -> describes fs ar -> describes fs' ar' -> g_ok g -> g_ok g' ->
  (forall p, canon fs' p = canon fs p) -> (forall f, f <> full -> ar' f = ar f) ->
  canon fs path = Some full -> ar full = Some (CObj (before l)) -> ar' full = Some (CObj (after l)) ->
  from_file fs g path = Some (OOk o) -> from_file fs' g' path = Some (OOk o') ->
  respects ar (sh_log (snd (parse_obj_file fs g path))) -> respects ar' (sh_log (snd (parse_obj_file fs' g' path))) ->
  same_but (reached [] l) o o'.
Proof.
  intros Coh Des Des' G G' Hc Ha Ef Ea Ea' E E' Rs Rs'.
  assert (Coh' : coherent fs') by (intros p p' f q; rewrite !Hc; apply Coh).
  assert (Ef' : canon fs' path = Some full) by (rewrite Hc; exact Ef).
  assert (K : forall fs ar g its o, coherent fs -> describes fs ar -> g_ok g -> canon fs path = Some full -> ar full = Some (CObj its) ->
    from_file fs g path = Some (OOk o) -> respects ar (sh_log (snd (parse_obj_file fs g path))) ->
    exists n p y, ev_contents (afresh fs (without full ar) n (Some path)) (CObj its) ([], init_sh g) = Some (VObj p, y) /\ alike p o).
  { clear. intros fs ar g its o Coh Des G Ef Ea E Rs. unfold from_file in E. destruct (parse_obj_file fs g path) as [[o1|e| |] sh'] eqn:Rn; cbn in E; try discriminate.
    injection E as ->. cbn [snd] in Rs. destruct (file_back fs ar Coh Des g path full its o sh' G Ef Ea Rn Rs) as (p & y & W & E & C & _).
    destruct (least fs ar Coh _ path full _ (init_sh g) _ Ef Ea G E) as (m & _ & Em & Min).
    exists m, p, y. split; [|apply alike_sym; exact (corr_alike _ _ _ C)].
    refine (contents_good (afresh fs ar m (Some path)) _ _ ([], init_sh g) _ _ G Em). intros k q x v z Ei Gx. exact (afresh_without fs ar Coh full m Min m (le_n m) _ _ _ _ _ _ Ei Gx). }
  destruct (K fs ar g _ o Coh Des G Ef Ea E Rs) as (n & p & y & M & Al).
  destruct (K fs' ar' g' _ o' Coh' Des' G' Ef' Ea' E' Rs') as (n' & p' & y' & M' & Al').
  apply (contents_more _ (afresh fs (without full ar) n' (Some path))) in M'; [|intros k q x r; apply afresh_same; auto].
  apply (contents_le fs (without full ar) n (max n n')) in M; [|apply Nat.le_max_l]. apply (contents_le fs (without full ar) n' (max n n')) in M'; [|apply Nat.le_max_r].
  cbn [ev_contents] in M, M'. apply ebind_some in M as (q & s & M & Eq). injection Eq as -> ->. apply ebind_some in M' as (q & s & M' & Eq). injection Eq as -> ->.
  apply (same_but_alike _ p p'); auto.
  eapply (reach_doc _ (pure_serves fs (without full ar) Coh _ (Some path) (Some path) (fun _ => eq_refl)) (afresh_globals fs (without full ar) _ (Some path))); [| |exact M|exact M']; auto.
Qed.
(** Seen with [get]: a field that is not reached, of an Obj whose parent is not reached. *)
Theorem C75_get T o o' f : same_but T o o' -> ~ In (lit "^") T -> ~ In f T ->
  option_map erase (obj_get o f) = option_map erase (obj_get o' f).
Proof.
  intros [A B] Np Nf. specialize (B Np). destruct o as [i ps q], o' as [i' ps' q']. cbn [obj_pairs obj_parent] in *. rewrite !erase_others in A.
  assert (Ep : option_map erase (assoc f ps) = option_map erase (assoc f ps')).
  { rewrite <- !assoc_erase. rewrite <- (assoc_others T (erase_pairs ps) f Nf), <- (assoc_others T (erase_pairs ps') f Nf), A. reflexivity. }
  cbn [obj_get]. destruct (assoc f ps), (assoc f ps'); cbn in Ep; try discriminate; [exact Ep|].
  destruct q as [q|], q' as [q'|]; cbn in B; try discriminate; [|reflexivity]. injection B as B. apply erase_get. exact B.
Qed.
(** An edit that reaches nothing: the same data, with its order. *)
Theorem C75_none o o' : same_but [] o o' -> alike o o'.
Proof.
  intros [A B]. specialize (B (fun X => X)). apply alike_pairs; [|exact B].
  assert (N : forall ps : list pair_t, others [] ps = ps) by (induction ps as [|[f v] ps IH]; [reflexivity|]; unfold others in *; cbn; f_equal; exact IH).
  rewrite !N in A. exact A.
Qed.
(** Every pair of documents is an edit. *)
Lemma before_map its its' : before (map (fun p => Removed (fst p) (snd p)) its ++ map (fun p => Added (fst p) (snd p)) its') = its.
Proof.
  unfold before. rewrite flat_map_app, !flat_map_concat_map, !map_map. induction its as [|[f e] its IH]; cbn; [|f_equal; exact IH].
  induction its' as [|[f e] its' IH]; [reflexivity|exact IH].
Qed.
Lemma after_map its its' : after (map (fun p => Removed (fst p) (snd p)) its ++ map (fun p => Added (fst p) (snd p)) its') = its'.
Proof.
  unfold after. rewrite flat_map_app, !flat_map_concat_map, !map_map. induction its as [|[f e] its IH]; cbn; [|exact IH].
  induction its' as [|[f e] its' IH]; [reflexivity|]. cbn. f_equal. exact IH.
Qed.
End P.

(** ** Concrete cases *)
Section Ex.
#[local] Instance ascii : Unicode := {| u_alpha := fun _ => false; u_debug := fun c => [c] |}.
Definition two : expr := Ex (ANum (lit "2")) [].
Definition plus1 (n : str) : expr := Ex (AVar false n) [(BPlus, ANum (lit "1"))].
(** In the project of C67:
    @g: [1]  a: 1 (becomes 2)  b: a + 1  x: <"b">  ^: x  h: {@i: 1} (removed)  d: {q: @g}  n: 2 (added)  e: {q: {r: @j}} with @j: b *)
Definition change : list edit :=
  [ Kept (lit "@g") (Ex (AArr [PropRefactor.one]) []); Changed (lit "a") PropRefactor.one two; Kept (lit "b") (plus1 (lit "a")); Kept (lit "x") (inc_obj 98);
    Kept (lit "^") (PropRefactor.nm (lit "x")); Removed (lit "h") (Ex (AObj [(lit "@i", PropRefactor.one)]) []); Kept (lit "d") (Ex (AObj [(lit "q", PropRefactor.gnm (lit "g"))]) []);
    Added (lit "n") two; Kept (lit "@j") (PropRefactor.nm (lit "b")); Kept (lit "e") (Ex (AObj [(lit "q", Ex (AObj [(lit "r", PropRefactor.gnm (lit "j"))]) [])]) []) ].
Example C75_ex_reached : reached [] change = [lit "e"; lit "@j"; lit "n"; lit "h"; lit "@i"; lit "b"; lit "a"].
Proof. reflexivity. Qed.
Example C75_ex : exists o o', r_doc (before change) (show_items (before change)) /\ r_doc (after change) (show_items (after change)) /\
  from_str proj g0 (show_items (before change)) = Some (OOk o) /\ from_str proj g0 (show_items (after change)) = Some (OOk o') /\
  respects proj_ar (sh_log (snd (parse_obj_str proj g0 (show_items (before change))))) /\ respects proj_ar (sh_log (snd (parse_obj_str proj g0 (show_items (after change))))) /\
  map fst (others (reached [] change) (obj_pairs o)) = [lit "x"; lit "d"] /\ obj_parent o <> None /\ ~ In (lit "^") (reached [] change) /\
  (* everything that is reached is different *)
  obj_get o (lit "b") = Some (VInt 2) /\ obj_get o' (lit "b") = Some (VInt 3) /\
  option_map erase (obj_get o (lit "e")) <> option_map erase (obj_get o' (lit "e")) /\ obj_get o' (lit "h") = None /\ obj_get o (lit "n") = None.
Proof.
  eexists. eexists. split; [apply show_doc; reflexivity|]. split; [apply show_doc; reflexivity|].
  split; [vm_compute; reflexivity|]. split; [vm_compute; reflexivity|].
  split; [apply respects_b; vm_compute; reflexivity|]. split; [apply respects_b; vm_compute; reflexivity|].
  split; [reflexivity|]. split; [discriminate|]. split; [cbn; intuition discriminate|]. split; [reflexivity|]. split; [reflexivity|].
  split; [vm_compute; discriminate|]. split; reflexivity.
Qed.
(** A file of the project: /a edited. *)
Definition change_a : list edit := [Kept (lit "x") (inc_obj 98); Changed (lit "y") (inc_as (lit "Arr") 99) two; Kept (lit "z") (inc_obj 98); Added (lit "w") (PropRefactor.nm (lit "y"))].
Definition proj_a : fsys :=
  mkfs (fun p => match p with [97] => Some 0%nat | [98] => Some 1%nat | [99] => Some 2%nat | [100] => Some 3%nat | _ => None end)
    [ mkfe (Some (lit "/a")) (inl (show_items (after change_a))); mkfe (Some (lit "/b")) (inl (show_items in_b));
      mkfe (Some (lit "/c")) (inl (show_list in_c)); mkfe (Some (lit "/d")) (inl (lit "{not over")) ] (fun _ => lit "no such file").
Definition proj_a_ar : archive := fun full => if str_eqb full (lit "/a") then Some (CObj (after change_a)) else proj_ar full.
Example C75_file_ex : exists o o', before change_a = in_a /\ (forall p, canon proj_a p = canon proj p) /\ (forall f, f <> lit "/a" -> proj_a_ar f = proj_ar f) /\
  describes proj_a proj_a_ar /\ canon proj (lit "a") = Some (lit "/a") /\
  from_file proj g0 (lit "a") = Some (OOk o) /\ from_file proj_a g0 (lit "a") = Some (OOk o') /\
  respects proj_ar (sh_log (snd (parse_obj_file proj g0 (lit "a")))) /\ respects proj_a_ar (sh_log (snd (parse_obj_file proj_a g0 (lit "a")))) /\
  reached [] change_a = [lit "w"; lit "y"] /\ map fst (others (reached [] change_a) (obj_pairs o)) = [lit "x"; lit "z"].
Proof.
  assert (Hc : forall p, canon proj_a p = canon proj p).
  { intros p. unfold canon, fs_entry. destruct (path_parent p); [|reflexivity]. change (fs_resolve proj_a p) with (fs_resolve proj p).
    destruct (fs_resolve proj p) as [n|]; [|reflexivity]. do 4 (destruct n as [|n]; [reflexivity|]). destruct n; reflexivity. }
  eexists. eexists. split; [reflexivity|]. split; [exact Hc|].
  split; [intros f N; unfold proj_a_ar; destruct (str_eqb_spec f (lit "/a")); [contradiction|reflexivity]|].
  split.
  { intros path full c H Ha. rewrite Hc in H. apply proj_paths in H. destruct H as [[-> ->]|[[-> ->]|[[-> ->]|[-> ->]]]]; vm_compute in Ha; injection Ha as <-.
    - exists (show_items (after change_a)). split; [eexists _, _; repeat split; discriminate|]. apply show_doc. reflexivity.
    - exists (show_items in_b). split; [eexists _, _; repeat split; discriminate|]. apply show_doc. reflexivity.
    - exists (show_list in_c). split; [eexists _, _; repeat split; discriminate|]. exists [], (show_list in_c), []. rewrite app_nil_r. split; [reflexivity|]. split; [constructor|]. split; [|left; reflexivity].
      apply show_elems; [|reflexivity]. apply Forall_forall. intros e _. apply show_ok.
    - exists (lit "{not over"). split; [eexists _, _; repeat split; discriminate|]. reflexivity. }
  split; [reflexivity|]. split; [vm_compute; reflexivity|]. split; [vm_compute; reflexivity|].
  split; [apply respects_b; vm_compute; reflexivity|]. split; [apply respects_b; vm_compute; reflexivity|]. split; reflexivity.
Qed.
(** An edit reaches more than the items that are edited: through a field, and through a global inside literals. *)
Definition edited (l : list edit) : list str := flat_map (fun d => match d with Kept _ _ => [] | Changed f _ _ | Removed f _ | Added f _ => [f] end) l.
Theorem C75_edited_only_refuted : exists l o o', item_plain (before l) = true /\ item_plain (after l) = true /\
  from_str proj g0 (show_items (before l)) = Some (OOk o) /\ from_str proj g0 (show_items (after l)) = Some (OOk o') /\
  edited l = [lit "@g"] /\ ~ same_but (edited l) o o' /\ reached [] l = [lit "b"; lit "a"; lit "@g"].
Proof.
  exists [Changed (lit "@g") PropRefactor.one two; Kept (lit "a") (Ex (AObj [(lit "q", PropRefactor.gnm (lit "g"))]) []); Kept (lit "b") (Ex (ADot false (lit "a") (AVar false (lit "q"))) [])].
  eexists. eexists. split; [reflexivity|]. split; [reflexivity|]. split; [vm_compute; reflexivity|]. split; [vm_compute; reflexivity|].
  split; [reflexivity|]. split; [|reflexivity]. intros [A _]. vm_compute in A. discriminate A.
Qed.
End Ex.
