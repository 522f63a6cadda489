(** * PropReplace: a file can be replaced by any other with the same data (C69). *)
From Verif Require Export Replace ReplaceProofs PropAfresh.
From Verif Require Import PropRound PropFiles PropHistory PropNames Render Roundtrip FormatProofs.
From Coq Require String.
Import String.StringSyntax.
Open Scope N_scope.

Section P.
Context `{U : Unicode}.
(** C69.  In a project, let any files be replaced by others of the same kind and the same data (and any files by
    others with the same contents in another layout).  A file or a text that loads, loads to the same data. *)
Theorem C69_file fs fs' ar ar' g path full items o : (forall p, canon fs p = canon fs' p) -> coherent fs ->
  describes fs ar -> describes fs' ar' -> same_data fs fs' ar ar' -> g_ok g ->
  canon fs path = Some full -> ar full = Some (CObj items) ->
  from_file fs g path = Some (OOk o) -> respects ar (sh_log (snd (parse_obj_file fs g path))) ->
  exists o', from_file fs' g path = Some (OOk o') /\ alike o o' /\ obj_eqb o' o = true /\
    respects ar' (sh_log (snd (parse_obj_file fs' g path))).
Proof.
  intros Same Coh Des Des' Data Gg Ef Ea E Rs.
  destruct (C67_file_back fs ar g path full items o Coh Des Gg Ef Ea E Rs) as (o1 & x & A & Al).
  destruct (replace_serves fs fs' ar ar' Same Coh Data _ None [] [] [] (init_sh g) (init_sh g) IObj path _ _ (ids_nil _ _ Gg Gg) Logic.I A)
    as (_ & v' & h1 & W & A' & _ & C & _).
  inversion C as [| | | | | | |? o2 Co]; subst.
  destruct (C67_file fs' ar' g _ path o2 _ (coh' fs fs' Same Coh) Des' Gg A') as (o' & L & Al' & _ & Rs').
  assert (X : alike o o').
  { unfold alike in *. apply corr_alike in C. unfold alike in C. congruence. }
  exists o'. split; [exact L|]. split; [exact X|]. split; [|exact Rs']. apply alike_eq; [|exact X]. apply any_good. eapply loaded_wf. right. eauto.
Qed.
Theorem C69_str fs fs' ar ar' g items text text' o : (forall p, canon fs p = canon fs' p) -> coherent fs ->
  describes fs ar -> describes fs' ar' -> same_data fs fs' ar ar' -> g_ok g -> r_doc items text -> r_doc items text' ->
  from_str fs g text = Some (OOk o) -> respects ar (sh_log (snd (parse_obj_str fs g text))) ->
  exists o', from_str fs' g text' = Some (OOk o') /\ alike o o' /\ obj_eqb o' o = true /\
    respects ar' (sh_log (snd (parse_obj_str fs' g text'))).
Proof.
  intros Same Coh Des Des' Data Gg R R' E Rs.
  destruct (C67_str_back fs ar g items text o Coh Des Gg R E Rs) as (o1 & x & A & Al).
  assert (Ec : ev_contents (afresh fs ar (S (List.length (fs_files fs))) None) (CObj items) ([], init_sh g) = Some (VObj o1, x)) by (cbn [ev_contents]; unfold ebind; rewrite A; reflexivity).
  destruct (contents_move nothing ltac:(exact (fun _ _ _ _ _ _ H => H)) _ _ (CObj items) [] (init_sh g) (init_sh g) _ _
    (replace_serves fs fs' ar ar' Same Coh Data _ None) (ids_nil _ _ Gg Gg) Logic.I Ec) as (v' & y' & W & A' & _ & C & _).
  cbn [ev_contents] in A'. apply ebind_some in A' as (o2 & y & A' & E2). injection E2 as <- <-.
  destruct (C67_str fs' ar' g _ items text' o2 _ (coh' fs fs' Same Coh) Des' Gg R' A') as (o' & L & Al' & _ & Rs').
  assert (X : alike o o').
  { unfold alike in *. apply corr_alike in C. unfold alike in C. congruence. }
  exists o'. split; [exact L|]. split; [exact X|]. split; [|exact Rs']. apply alike_eq; [eapply loaded_any; exact E|exact X].
Qed.
(** Nothing is lost by it either: the two projects load the same files and texts, to the same data. *)
Lemma same_data_sym fs fs' ar ar' : same_data fs fs' ar ar' -> same_data fs' fs ar' ar.
Proof.
  intros D full. destruct (D full) as [E|(w & c & c' & A & B & C & E & K)]; [left; auto|].
  right. exists w, c', c. split; [exact B|]. split; [exact A|]. split; [exact E|]. split; [exact C|]. auto.
Qed.
Theorem C69_file_iff fs fs' ar ar' g path full items d : (forall p, canon fs p = canon fs' p) -> coherent fs ->
  describes fs ar -> describes fs' ar' -> same_data fs fs' ar ar' -> g_ok g ->
  canon fs path = Some full -> ar full = Some (CObj items) ->
  (exists o, from_file fs g path = Some (OOk o) /\ respects ar (sh_log (snd (parse_obj_file fs g path))) /\ alike d o) <->
  (exists o, from_file fs' g path = Some (OOk o) /\ respects ar' (sh_log (snd (parse_obj_file fs' g path))) /\ alike d o).
Proof.
  intros Same Coh Des Des' Data Gg Ef Ea. split.
  - intros (o & E & Rs & Al). destruct (C69_file fs fs' ar ar' g path full items o Same Coh Des Des' Data Gg Ef Ea E Rs) as (o' & E' & Al' & _ & Rs').
    exists o'. split; [exact E'|]. split; [exact Rs'|]. unfold alike in *. congruence.
  - intros (o & E & Rs & Al).
    assert (Ea' : exists items', ar' full = Some (CObj items')).
    { destruct (Data full) as [Q|(w & c & c' & _ & _ & A & B & K)]; [exists items; congruence|].
      assert (c = CObj items) by congruence. subst c. destruct c'; try discriminate K. eauto. }
    destruct Ea' as (items' & Ea').
    destruct (C69_file fs' fs ar' ar g path full items' o (fun p => eq_sym (Same p)) (coh' fs fs' Same Coh) Des' Des (same_data_sym _ _ _ _ Data) Gg
      (eq_trans (eq_sym (Same path)) Ef) Ea' E Rs) as (o' & E' & Al' & _ & Rs').
    exists o'. split; [exact E'|]. split; [exact Rs'|]. unfold alike in *. congruence.
Qed.
Theorem C69_str_iff fs fs' ar ar' g items text text' d : (forall p, canon fs p = canon fs' p) -> coherent fs ->
  describes fs ar -> describes fs' ar' -> same_data fs fs' ar ar' -> g_ok g -> r_doc items text -> r_doc items text' ->
  (exists o, from_str fs g text = Some (OOk o) /\ respects ar (sh_log (snd (parse_obj_str fs g text))) /\ alike d o) <->
  (exists o, from_str fs' g text' = Some (OOk o) /\ respects ar' (sh_log (snd (parse_obj_str fs' g text'))) /\ alike d o).
Proof.
  intros Same Coh Des Des' Data Gg R R'. split.
  - intros (o & E & Rs & Al). destruct (C69_str fs fs' ar ar' g items text text' o Same Coh Des Des' Data Gg R R' E Rs) as (o' & E' & Al' & _ & Rs').
    exists o'. split; [exact E'|]. split; [exact Rs'|]. unfold alike in *. congruence.
  - intros (o & E & Rs & Al).
    destruct (C69_str fs' fs ar' ar g items text' text o (fun p => eq_sym (Same p)) (coh' fs fs' Same Coh) Des' Des (same_data_sym _ _ _ _ Data) Gg
      R' R E Rs) as (o' & E' & Al' & _ & Rs').
    exists o'. split; [exact E'|]. split; [exact Rs'|]. unfold alike in *. congruence.
Qed.
(** Having the same data, in terms of loads. *)
Lemma worth_load fs ar path full items o : coherent fs -> describes fs ar -> canon fs path = Some full -> ar full = Some (CObj items) ->
  loads_well fs ar path o -> worth fs ar full (VObj o).
Proof.
  intros Coh Des Ef Ea (g & Gg & E & Rs & F). unfold from_file in E.
  destruct (parse_obj_file fs g path) as [[o1|e| |] sh'] eqn:Rn; cbn in E; try discriminate. injection E as ->. cbn [snd] in *.
  destruct (file_back fs ar Coh Des g path full items o sh' Gg Ef Ea Rn Rs) as (o2 & y & W & E' & C & I).
  exists (files fs), path, (CObj items), (init_sh g), (VObj o2), y. split; [exact Ef|]. split; [exact Ea|]. split; [exact Gg|]. split; [exact E'|].
  split; [symmetry; eapply History.corr_erase; exact C|]. exact (proj1 (free_corr W _ _ _ _ I C F)).
Qed.
Theorem C69_same_data fs fs' ar ar' : (forall p, canon fs p = canon fs' p) -> coherent fs -> describes fs ar -> describes fs' ar' ->
  (forall full, ar full = ar' full \/ exists path items items' o o', canon fs path = Some full /\
     ar full = Some (CObj items) /\ ar' full = Some (CObj items') /\
     loads_well fs ar path o /\ loads_well fs' ar' path o' /\ alike o o') ->
  same_data fs fs' ar ar'.
Proof.
  intros Same Coh Des Des' H full. destruct (H full) as [E|(path & items & items' & o & o' & Ef & Ea & Ea' & L & L' & Al)]; [left; exact E|].
  right. exists (VObj o), (CObj items), (CObj items'). split; [eapply worth_load; eauto|].
  split; [|split; [exact Ea|split; [exact Ea'|reflexivity]]].
  destruct (worth_load fs' ar' path full items' o' (coh' fs fs' Same Coh) Des') as (n & p & c & h & v & x & X1 & X2 & X3 & X4 & X5 & X6); auto.
  { rewrite <- Same. exact Ef. }
  exists n, p, c, h, v, x. split; [exact X1|]. split; [exact X2|]. split; [exact X3|]. split; [exact X4|]. split; [|exact X6].
  rewrite X5. cbn [erase]. unfold alike in Al. rewrite Al. reflexivity.
Qed.

(** In particular a file can be replaced by what is written for it: then it includes nothing. *)
Lemma g0_sent k : g_sent g0 k = None. Proof. destruct k; reflexivity. Qed.
Lemma worth_written fs ar path full o : canon fs path = Some full -> ar full = Some (CObj (quote_items o)) ->
  wf_obj good_names o -> depth_obj o <= 64 -> worth fs ar full (VObj o).
Proof.
  intros Ef Ea W D. destruct (proj2 (quote_gives (afresh fs ar 0 (Some path)) limit64) o W 1 (room64 _ D) ([], init_sh g0)) as (ps & par & y & E & V & [_ Cl]).
  exists 0%nat, path, (CObj (quote_items o)), (init_sh g0).
  destruct (fresh_some y) as (i & z & Fr & [_ Cz]). exists (VObj (MkObj i ps par)), z.
  split; [exact Ef|]. split; [exact Ea|]. split; [exact g0_ok|]. split.
  { cbn [ev_contents]. unfold ev_doc, ebind. rewrite E. cbn [fst snd]. rewrite Fr. reflexivity. }
  split; [cbn [erase]; f_equal; rewrite <- V; reflexivity|].
  intros p j k _ _ S. destruct (Cl eq_refl) as [O1 S1]. destruct (Cz O1) as [_ S2]. rewrite S2, S1 in S. cbn [snd init_sh sh_g] in S.
  rewrite g0_sent in S. discriminate.
Qed.
Definition with_contents (ar : archive) (full : str) (c : contents) : archive := fun f => if str_eqb f full then Some c else ar f.
Theorem C69_written fs fs' ar g path c items o text main full its m : only_differs c fs fs' -> coherent fs -> describes fs ar -> g_ok g ->
  canon fs path = Some c -> ar c = Some (CObj items) -> loads_well fs ar path o -> depth_obj o <= 64 ->
  write_to_string o = Some text -> (forall p, canon fs' p = Some c -> readable fs' p text) ->
  canon fs main = Some full -> ar full = Some (CObj its) ->
  from_file fs g main = Some (OOk m) -> respects ar (sh_log (snd (parse_obj_file fs g main))) ->
  exists m' ar', from_file fs' g main = Some (OOk m') /\ alike m m' /\ obj_eqb m' m = true /\
    describes fs' ar' /\ (forall f, f <> c -> ar' f = ar f) /\ respects ar' (sh_log (snd (parse_obj_file fs' g main))).
Proof.
  intros Od Coh Des Gg Ef Ea L D Wt Rd Em Eam E Rs.
  assert (Same : forall p, canon fs p = canon fs' p) by (intros p; apply Od).
  assert (Wf : wf_obj good_names o) by (destruct L as (g1 & _ & L & _); eapply loaded_wf; right; eauto).
  assert (Wd : r_doc (quote_items o) text).
  { rewrite write_to_string_fmt in Wt. injection Wt as <-. apply write_doc. apply legal_good. exact Wf. }
  set (ar' := with_contents ar c (CObj (quote_items o))).
  assert (Ea' : ar' c = Some (CObj (quote_items o))) by (unfold ar', with_contents; destruct (str_eqb_spec c c); congruence).
  assert (Des' : describes fs' ar').
  { intros p f x Hf Ha. unfold ar', with_contents in Ha. destruct (str_eqb_spec f c) as [->|Ne].
    - injection Ha as <-. exists text. split; [apply Rd; exact Hf|exact Wd].
    - rewrite <- Same in Hf. destruct (Des _ _ _ Hf Ha) as (t & (i & fe & He & Hr & Hc) & Wr). exists t. split; [|exact Wr].
      destruct (Od p) as [_ Q]. rewrite He in Q. specialize (Q ltac:(congruence)). cbn in Q.
      destruct (fs_entry fs' p) as [[i' fe']|] eqn:He'; [|discriminate]. cbn in Q. injection Q as <-. exists i', fe. auto. }
  enough (Data : same_data fs fs' ar ar').
  { destruct (C69_file fs fs' ar ar' g main full its m Same Coh Des Des' Data Gg Em Eam E Rs) as (m' & L' & Al & Q & Rs').
    exists m', ar'. split; [exact L'|]. split; [exact Al|]. split; [exact Q|]. split; [exact Des'|]. split; [|exact Rs'].
    intros f Ne. unfold ar', with_contents. destruct (str_eqb_spec f c); congruence. }
  intros f. unfold ar', with_contents. destruct (str_eqb_spec f c) as [->|Ne]; [|left; reflexivity].
  right. exists (VObj o), (CObj items), (CObj (quote_items o)). split; [eapply worth_load; eauto|].
  split; [|split; [exact Ea|split; [reflexivity|reflexivity]]].
  eapply worth_written; eauto. rewrite <- Same. exact Ef.
Qed.
End P.

(** ** A concrete project: a includes b twice and c; b includes c and d.  Replace b by what is written for it. *)
Section Ex.
#[local] Instance ascii : Unicode := {| u_alpha := fun _ => false; u_debug := fun c => [c] |}.
Definition with_b (text : str) : fsys :=
  mkfs (fs_resolve proj) [ mkfe (Some (lit "/a")) (inl (show_items in_a)); mkfe (Some (lit "/b")) (inl text);
      mkfe (Some (lit "/c")) (inl (show_list in_c)); mkfe (Some (lit "/d")) (inl (lit "{not over")) ] (fun _ => lit "no such file").
Definition b_loaded : obj := match from_file proj g0 (lit "b") with Some (OOk o) => o | _ => obj_empty 0 end.
Definition b_text : str := match write_to_string b_loaded with Some t => t | None => [] end.
Lemma with_b_differs t : only_differs (lit "/b") proj (with_b t).
Proof.
  intros p. unfold canon, fs_entry. cbn [fs_resolve with_b fs_files proj]. destruct (path_parent p); [|split; [reflexivity|auto]].
  destruct (fs_resolve proj p) as [i|] eqn:R; cbn [fs_resolve proj] in R; rewrite R; [|split; [reflexivity|auto]].
  destruct i as [|[|[|[|i]]]]; cbn [nth_error]; cbn; (split; [reflexivity|]); intros; try reflexivity; try congruence.
Qed.
Lemma proj_coherent : coherent proj.
Proof.
  intros path path' full q H H'. apply proj_paths in H, H'.
  destruct H as [[-> ->]|[[-> ->]|[[-> ->]|[-> ->]]]], H' as [[-> H]|[[-> H]|[[-> H]|[-> H]]]]; try reflexivity; discriminate H.
Qed.
Lemma proj_describes : describes proj proj_ar.
Proof.
  intros path full c H Ha. apply proj_paths in H. destruct H as [[-> ->]|[[-> ->]|[[-> ->]|[-> ->]]]]; vm_compute in Ha; injection Ha as <-.
  - exists (show_items in_a). split; [eexists _, _; repeat split; discriminate|]. apply show_doc. reflexivity.
  - exists (show_items in_b). split; [eexists _, _; repeat split; discriminate|]. apply show_doc. reflexivity.
  - exists (show_list in_c). split; [eexists _, _; repeat split; discriminate|]. exists [], (show_list in_c), []. rewrite app_nil_r. split; [reflexivity|]. split; [constructor|]. split; [|left; reflexivity].
    apply show_elems; [|reflexivity]. apply Forall_forall. intros e _. apply show_ok.
  - exists (lit "{not over"). split; [eexists _, _; repeat split; discriminate|]. reflexivity.
Qed.
Lemma b_well : loads_well proj proj_ar (lit "b") b_loaded.
Proof.
  exists g0. split; [apply g0_ok|]. split; [vm_compute; reflexivity|]. split; [apply respects_b; vm_compute; reflexivity|].
  intros p i k P Hi. vm_compute in P.
  repeat match goal with
  | H : part _ (VObj _) |- _ => inversion H; clear H; subst
  | H : part _ (VArr _) |- _ => inversion H; clear H; subst
  | H : part _ (VStr _) |- _ => inversion H; clear H; subst
  | H : In _ (_ :: _) |- _ => destruct H
  | H : In _ [] |- _ => destruct H
  | H : (_, _) = (_, _) |- _ => injection H as <- <-
  | H : VStr _ = _ |- _ => subst
  end; cbn in Hi; try discriminate; injection Hi as <-; destruct k; vm_compute; discriminate.
Qed.
(** The written b has no includes, the project is the same data. *)
Example C69_written_ex : exists m m', from_file proj g0 (lit "a") = Some (OOk m) /\ obj_len m = 3 /\
  from_file (with_b b_text) g0 (lit "a") = Some (OOk m') /\ alike m m' /\
  b_text <> show_items in_b /\ obj_len b_loaded = 2.
Proof.
  assert (E : exists m, from_file proj g0 (lit "a") = Some (OOk m) /\ obj_len m = 3) by (eexists; split; vm_compute; reflexivity).
  destruct E as (m & E & Ln).
  assert (Rs : respects proj_ar (sh_log (snd (parse_obj_file proj g0 (lit "a"))))) by (apply respects_b; vm_compute; reflexivity).
  destruct (C69_written proj (with_b b_text) proj_ar g0 (lit "b") (lit "/b") in_b b_loaded b_text (lit "a") (lit "/a") in_a m) as (m' & ar' & E' & Al & _).
  - apply with_b_differs.
  - apply proj_coherent.
  - apply proj_describes.
  - apply g0_ok.
  - reflexivity.
  - reflexivity.
  - apply b_well.
  - vm_compute. discriminate.
  - vm_compute. reflexivity.
  - intros p H. rewrite <- (proj1 (with_b_differs b_text p)) in H. apply proj_paths in H.
    destruct H as [[_ H]|[[-> _]|[[_ H]|[_ H]]]]; try discriminate H. eexists _, _. split; [reflexivity|]. split; [reflexivity|discriminate].
  - reflexivity.
  - reflexivity.
  - exact E.
  - exact Rs.
  - exists m, m'. split; [exact E|]. split; [exact Ln|]. split; [exact E'|]. split; [exact Al|]. split; [vm_compute; discriminate|vm_compute; reflexivity].
Qed.
(** Without keywords, that is needed: the file b with the line k: Str is written as k: {}, and then k is no keyword. *)
Definition kw_b : list (str * expr) := [(lit "k", Ex (AVar false (lit "Str")) [])].
Definition uses_kw : str := lit "x: <" ++ [34; 98; 34] ++ lit "> y: <x.k " ++ [34; 100; 34] ++ lit ">".
Theorem C69_keyword_refuted : exists o o' text m e, from_file (with_b (show_items kw_b)) g0 (lit "b") = Some (OOk o) /\
  write_to_string o = Some text /\ from_file (with_b text) g0 (lit "b") = Some (OOk o') /\ obj_eqb o' o = true /\
  from_str (with_b (show_items kw_b)) g0 uses_kw = Some (OOk m) /\ from_str (with_b text) g0 uses_kw = Some (OErr e).
Proof. do 5 eexists. split; [vm_compute; reflexivity|]. split; [vm_compute; reflexivity|]. split; [vm_compute; reflexivity|]. split; [vm_compute; reflexivity|]. split; vm_compute; reflexivity. Qed.
End Ex.
