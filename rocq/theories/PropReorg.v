(** * PropReorg: reorganizing a project of several files (C70). *)
From Verif Require Export Reorg ReorgProofs PropAfresh.
From Verif Require Import PropRound PropHistory PropReplace PropNames Render.
From Coq Require String.
Import String.StringSyntax.
Open Scope N_scope.

Section P.
Context `{U : Unicode}.
(** C70.  Two projects, the second reorganized from the first.  What loads in the first loads in the second, to the
    same data. *)
Theorem C70_file fs fs' ar ar' twin deeper g path path' full full' items o : coherent fs -> coherent fs' ->
  describes fs ar -> describes fs' ar' -> reorganized fs fs' ar ar' twin deeper -> not_too_deep ar' deeper -> g_ok g ->
  canon fs path = Some full -> canon fs' path' = Some full' -> twin full full' -> ar full = Some (CObj items) ->
  from_file fs g path = Some (OOk o) -> respects ar (sh_log (snd (parse_obj_file fs g path))) ->
  exists o', from_file fs' g path' = Some (OOk o') /\ alike o o' /\ obj_eqb o' o = true /\
    respects ar' (sh_log (snd (parse_obj_file fs' g path'))).
Proof.
  intros Coh Coh' Des Des' Reo Deep Gg Ef Ef' Tw Ea E Rs.
  destruct (C67_file_back fs ar g path full items o Coh Des Gg Ef Ea E Rs) as (o1 & x & A & Al).
  destruct (file_goes fs fs' ar ar' twin deeper Coh' Deep Reo _ path path' full full' g _ _ Ef Ef' Tw Gg A) as (v' & x' & A' & Er).
  destruct v' as [| | | | |[]|[]|o2]; try discriminate Er.
  destruct (C67_file fs' ar' g _ path' o2 _ Coh' Des' Gg A') as (o' & L & Al' & _ & Rs').
  assert (X : alike o o') by (unfold alike in *; cbn [erase] in Er; injection Er as Er; congruence).
  exists o'. split; [exact L|]. split; [exact X|]. split; [|exact Rs']. apply alike_eq; [|exact X]. apply any_good. eapply loaded_wf. right. eauto.
Qed.
Theorem C70_str fs fs' ar ar' twin deeper g items items' text text' o : coherent fs -> coherent fs' ->
  describes fs ar -> describes fs' ar' -> reorganized fs fs' ar ar' twin deeper -> not_too_deep ar' deeper -> g_ok g ->
  re_items fs fs' ar ar' twin deeper None None items items' -> (deeper = true -> nest_doc items' <= 63) ->
  r_doc items text -> r_doc items' text' ->
  from_str fs g text = Some (OOk o) -> respects ar (sh_log (snd (parse_obj_str fs g text))) ->
  exists o', from_str fs' g text' = Some (OOk o') /\ alike o o' /\ obj_eqb o' o = true /\
    respects ar' (sh_log (snd (parse_obj_str fs' g text'))).
Proof.
  intros Coh Coh' Des Des' Reo Deep Gg Hi Nd R R' E Rs.
  destruct (C67_str_back fs ar g items text o Coh Des Gg R E Rs) as (o1 & x & A & Al).
  destruct (doc_goes fs fs' ar ar' twin deeper Coh' Deep Reo _ items items' g o1 x Hi Nd Gg A) as (o2 & x' & A' & Er).
  destruct (C67_str fs' ar' g _ items' text' o2 _ Coh' Des' Gg R' A') as (o' & L & Al' & _ & Rs').
  assert (X : alike o o') by (unfold alike in *; congruence).
  exists o'. split; [exact L|]. split; [exact X|]. split; [|exact Rs']. apply alike_eq; [eapply loaded_any; exact E|exact X].
Qed.

(** Contents that are not changed are reorganized, if every path in them leads to a twin. *)
Lemma re_same fs fs' ar ar' twin deeper f f' : around fs fs' twin f f' ->
  (forall a, re_atom fs fs' ar ar' twin deeper f f' a a) /\ (forall e, re_expr fs fs' ar ar' twin deeper f f' e e).
Proof.
  intros Ar.
  assert (Ls : forall es, Forall (fun e => re_expr fs fs' ar ar' twin deeper f f' e e) es -> re_list fs fs' ar ar' twin deeper f f' es es) by (induction 1; constructor; auto).
  apply ast_ind; intros; try (constructor; auto; fail).
  - constructor. induction H as [|[h e] its He _ IH]; constructor; auto.
  - destruct p as [e2|]; constructor; auto.
  - constructor; auto. induction H0 as [|[op b] l Hb _ IH]; constructor; auto.
Qed.
Theorem C70_unchanged fs fs' ar ar' twin deeper f f' c : around fs fs' twin f f' -> re_contents fs fs' ar ar' twin deeper f f' c c.
Proof.
  intros Ar. destruct (re_same fs fs' ar ar' twin deeper f f' Ar) as [_ Re].
  assert (Ls : forall es, re_list fs fs' ar ar' twin deeper f f' es es) by (induction es; constructor; auto).
  destruct c; constructor; auto. induction items as [|[h e] its IH]; constructor; auto.
Qed.
(** A project is moved to another place: the files stand for files with the same contents, and beside twins are
    twins.  *)
Theorem C70_moved fs fs' ar ar' (twin : str -> str -> Prop) g path path' full full' items o : coherent fs -> coherent fs' ->
  describes fs ar -> describes fs' ar' -> (forall a a', twin a a' -> ar' a' = ar a) ->
  (forall p p' a a' q b, canon fs p = Some a -> canon fs' p' = Some a' -> twin a a' -> canon fs (beside p q) = Some b ->
     exists b', canon fs' (beside p' q) = Some b' /\ twin b b') -> g_ok g ->
  canon fs path = Some full -> canon fs' path' = Some full' -> twin full full' -> ar full = Some (CObj items) ->
  from_file fs g path = Some (OOk o) -> respects ar (sh_log (snd (parse_obj_file fs g path))) ->
  exists o', from_file fs' g path' = Some (OOk o') /\ alike o o' /\ obj_eqb o' o = true /\
    respects ar' (sh_log (snd (parse_obj_file fs' g path'))).
Proof.
  intros Coh Coh' Des Des' Sm Bs Gg Ef Ef' Tw Ea E Rs. eapply (C70_file fs fs' ar ar' twin false); eauto; [|discriminate].
  intros a a' c Ta Ec. exists c. split; [rewrite (Sm _ _ Ta); exact Ec|]. intros p p' Hp Hp'. apply C70_unchanged.
  intros q b Hb. exact (Bs p p' a a' q b Hp Hp' Ta Hb).
Qed.
(** All this in any number of steps, each of which replaces files (C69) or reorganizes the project. *)
Record project := Project { p_files : fsys; p_contents : archive; p_main : str }.
Definition well (p : project) : Prop := coherent (p_files p) /\ describes (p_files p) (p_contents p) /\
  exists full items, canon (p_files p) (p_main p) = Some full /\ p_contents p full = Some (CObj items).
Inductive step : project -> project -> Prop :=
| st_replace fs fs' ar ar' main : (forall p, canon fs p = canon fs' p) -> same_data fs fs' ar ar' ->
    step (Project fs ar main) (Project fs' ar' main)
| st_reorganize fs fs' ar ar' twin deeper main main' full full' : reorganized fs fs' ar ar' twin deeper -> not_too_deep ar' deeper ->
    canon fs main = Some full -> canon fs' main' = Some full' -> twin full full' ->
    step (Project fs ar main) (Project fs' ar' main').
Inductive steps : project -> project -> Prop :=
| ss_none p : steps p p
| ss_more p q r : steps p q -> well q -> step q r -> well r -> steps p r.
Definition loads_to (g : gstate) (p : project) (o : obj) : Prop :=
  from_file (p_files p) g (p_main p) = Some (OOk o) /\ respects (p_contents p) (sh_log (snd (parse_obj_file (p_files p) g (p_main p)))).
Theorem C70_steps g p q o : g_ok g -> steps p q -> loads_to g p o -> exists o', loads_to g q o' /\ alike o o' /\ obj_eqb o' o = true.
Proof.
  intros Gg H L.
  enough (X : exists o', loads_to g q o' /\ alike o o').
  { destruct X as (o' & L' & Al). exists o'. split; [exact L'|]. split; [exact Al|]. apply alike_eq; [|exact Al].
    apply any_good. eapply loaded_wf. right. destruct L as [L _]. eauto. }
  induction H as [p|p q r _ IH (Coh & Des & full & items & Ef & Ea) St (Coh' & Des' & _)]; [exists o; split; [exact L|reflexivity]|].
  destruct (IH L) as (o1 & [E Rs] & Al).
  destruct St as [fs fs' ar ar' main Same Data|fs fs' ar ar' twin deeper main main' f f' Reo Deep Hf Hf' Tw]; cbn [p_files p_contents p_main] in *.
  - destruct (C69_file fs fs' ar ar' g main full items o1 Same Coh Des Des' Data Gg Ef Ea E Rs) as (o' & E' & Al' & _ & Rs').
    exists o'. split; [split; [exact E'|exact Rs']|]. unfold alike in *. congruence.
  - assert (f = full) by congruence. subst f.
    destruct (C70_file fs fs' ar ar' twin deeper g main main' full f' items o1 Coh Coh' Des Des' Reo Deep Gg Ef Hf' Tw Ea E Rs) as (o' & E' & Al' & _ & Rs').
    exists o'. split; [split; [exact E'|exact Rs']|]. unfold alike in *. congruence.
Qed.
End P.

(** ** A concrete case: the project of C67 (a includes b twice and c; b includes c and d; c includes d).
    b is moved into a at x, and there c into b, and d into c; elsewhere b is f, and in f the text d is moved in;
    in c the text "x" is moved out to the file h. *)
Section Ex.
#[local] Instance ascii : Unicode := {| u_alpha := fun _ => false; u_debug := fun c => [c] |}.
Definition str_d : expr := Ex (AStr (map SPlain (lit "{not over"))) [].
Definition str_x : expr := Ex (AStr [SPlain 120]) [].
Definition a2 : list (str * expr) :=
  [(lit "x", Ex (AObj [(lit "u", Ex (AArr [str_d; str_x]) []); (lit "v", inc_as (lit "Str") 100)]) []); (lit "y", inc_as (lit "Arr") 99); (lit "z", inc_obj 102)].
Definition f2 : list (str * expr) := [(lit "u", inc_as (lit "Arr") 99); (lit "v", str_d)].
Definition c2 : list expr := [inc_as (lit "Str") 100; inc_as (lit "Str") 104].
Definition proj2 : fsys :=
  mkfs (fun p => match p with [97] => Some 0%nat | [99] => Some 1%nat | [100] => Some 2%nat | [102] => Some 3%nat | [104] => Some 4%nat | _ => None end)
    [ mkfe (Some (lit "/a")) (inl (show_items a2)); mkfe (Some (lit "/c")) (inl (show_list c2)); mkfe (Some (lit "/d")) (inl (lit "{not over"));
      mkfe (Some (lit "/f")) (inl (show_items f2)); mkfe (Some (lit "/h")) (inl (lit "x")) ] (fun _ => lit "no such file").
Definition ar2 : archive := fun full =>
  if str_eqb full (lit "/a") then Some (CObj a2) else if str_eqb full (lit "/c") then Some (CArr c2)
  else if str_eqb full (lit "/d") then Some (CStr (lit "{not over")) else if str_eqb full (lit "/f") then Some (CObj f2)
  else if str_eqb full (lit "/h") then Some (CStr (lit "x")) else None.
Definition twin2 (p q : str) : Prop := In (p, q) [(lit "/a", lit "/a"); (lit "/b", lit "/f"); (lit "/c", lit "/c"); (lit "/d", lit "/d")].
Lemma proj2_paths path full : canon proj2 path = Some full ->
  In (path, full) [([97], lit "/a"); ([99], lit "/c"); ([100], lit "/d"); ([102], lit "/f"); ([104], lit "/h")].
Proof.
  unfold canon, fs_entry. destruct (path_parent path); [|discriminate]. cbn [fs_resolve proj2].
  destruct path as [|c [|d r]]; try discriminate; [|destruct c as [|[]]; try discriminate; repeat (destruct p; try discriminate)].
  destruct (N.eq_dec c 97) as [->|N1]; [intros E; injection E as <-; cbn; auto|]. destruct (N.eq_dec c 99) as [->|N2]; [intros E; injection E as <-; cbn; auto|].
  destruct (N.eq_dec c 100) as [->|N3]; [intros E; injection E as <-; cbn; auto|]. destruct (N.eq_dec c 102) as [->|N4]; [intros E; injection E as <-; cbn; auto|].
  destruct (N.eq_dec c 104) as [->|N5]; [intros E; injection E as <-; cbn; auto 6|].
  destruct c as [|c]; [discriminate|]. repeat (destruct c as [c|c|]; try discriminate); congruence.
Qed.
Lemma proj2_coherent : coherent proj2.
Proof.
  intros path path' full q H H'. apply proj2_paths in H, H'. cbn [In] in H, H'.
  repeat (destruct H as [H|H]; [injection H as <- <-; repeat (destruct H' as [H'|H']; [first [discriminate H'|injection H' as <-; reflexivity]|]); destruct H'|]). destruct H.
Qed.
Lemma proj2_describes : describes proj2 ar2.
Proof.
  intros path full c H Ha. apply proj2_paths in H. cbn [In] in H.
  repeat (destruct H as [H|H]; [injection H as <- <-; vm_compute in Ha; injection Ha as <-|]); [| | | | |destruct H].
  - exists (show_items a2). split; [eexists _, _; repeat split; discriminate|]. apply show_doc. reflexivity.
  - exists (show_list c2). split; [eexists _, _; repeat split; discriminate|]. exists [], (show_list c2), []. rewrite app_nil_r. split; [reflexivity|]. split; [constructor|]. split; [|left; reflexivity].
    apply show_elems; [|reflexivity]. apply Forall_forall. intros e _. apply show_ok.
  - exists (lit "{not over"). split; [eexists _, _; repeat split; discriminate|]. reflexivity.
  - exists (show_items f2). split; [eexists _, _; repeat split; discriminate|]. apply show_doc. reflexivity.
  - exists (lit "x"). split; [eexists _, _; repeat split; discriminate|]. reflexivity.
Qed.
Notation "'RE'" := (re_expr proj proj2 proj_ar ar2 twin2 true).
(** an include of c or d, by the same path *)
Lemma inc_same k f f' kw p full : assoc kw keywords = Some k -> canon proj (target f [p]) = Some full -> canon proj2 (target f' [p]) = Some full -> twin2 full full ->
  RE f f' (inc_as kw p) (inc_as kw p).
Proof. intros K H H' T. constructor; [|constructor]. apply (re_path _ _ _ _ _ _ f f' k _ _ [p] [p] full full); auto; constructor; auto. Qed.
(** d is moved in *)
Lemma inc_d f f' : canon proj (target f [100]) = Some (lit "/d") -> RE f f' (inc_as (lit "Str") 100) str_d.
Proof.
  intros H. constructor; [|constructor]. eapply (re_in _ _ _ _ _ _ f f' (AStr (map SPlain (lit "{not over"))) _ [100] (lit "/d") (CStr (lit "{not over")) _ (CStr (lit "{not over"))); try reflexivity; try (constructor; reflexivity); auto.
Qed.
Lemma str_same f f' : RE f f' str_x str_x. Proof. repeat constructor. Qed.
Lemma proj_reorganized : reorganized proj proj2 proj_ar ar2 twin2 true.
Proof.
  intros full full' c T Ha. cbn in T.
  repeat (destruct T as [T|T]; [injection T as <- <-; vm_compute in Ha; injection Ha as <-|]); [| | | |destruct T].
  - exists (CObj a2). split; [reflexivity|]. intros path path' H H'. apply proj_paths in H. apply proj2_paths in H'. cbn [In] in H'.
    assert (path = [97]) as -> by (destruct H as [[-> _]|[[_ H]|[[_ H]|[_ H]]]]; [reflexivity|discriminate H..]).
    assert (path' = [97]) as -> by (repeat (destruct H' as [H'|H']; [first [discriminate H'|injection H' as <-; reflexivity]|]); destruct H'). clear.
    constructor. constructor; [|constructor; [|constructor; [|constructor]]].
    + (* b moved in *)
      constructor; [|constructor].
      eapply (re_in _ _ _ _ _ _ _ _ (AObj in_b) _ [98] (lit "/b") (CObj in_b) _ (CObj [(lit "u", Ex (AArr [str_d; str_x]) []); (lit "v", inc_as (lit "Str") 100)]));
        try reflexivity; try constructor; try reflexivity.
      constructor; [|constructor; [|constructor]].
      * (* c moved in *)
        constructor; [|constructor].
        eapply (re_in _ _ _ _ _ _ _ _ (AArr in_c) _ [99] (lit "/c") (CArr in_c) _ (CArr [str_d; str_x])); try reflexivity; try (constructor; reflexivity).
        constructor. constructor; [|constructor; [|constructor]]; [apply inc_d; reflexivity|apply str_same].
      * eapply inc_same with (k := IStr); try reflexivity. cbn. auto.
    + eapply inc_same with (k := IArr); try reflexivity. cbn. auto.
    + constructor; [|constructor]. eapply re_path with (p := [98]) (p' := [102]) (full := lit "/b") (full' := lit "/f"); try reflexivity; try (constructor; reflexivity). cbn. auto.
  - exists (CObj f2). split; [reflexivity|]. intros path path' H H'. apply proj_paths in H. apply proj2_paths in H'. cbn [In] in H'.
    assert (path = [98]) as -> by (destruct H as [[_ H]|[[-> _]|[[_ H]|[_ H]]]]; [discriminate H|reflexivity|discriminate H..]).
    assert (path' = [102]) as -> by (repeat (destruct H' as [H'|H']; [first [discriminate H'|injection H' as <-; reflexivity]|]); destruct H'). clear.
    constructor. constructor; [|constructor; [|constructor]].
    + eapply inc_same with (k := IArr); try reflexivity. cbn. auto.
    + apply inc_d. reflexivity.
  - exists (CArr c2). split; [reflexivity|]. intros path path' H H'. apply proj_paths in H. apply proj2_paths in H'. cbn [In] in H'.
    assert (path = [99]) as -> by (destruct H as [[_ H]|[[_ H]|[[-> _]|[_ H]]]]; [discriminate H|discriminate H|reflexivity|discriminate H]).
    assert (path' = [99]) as -> by (repeat (destruct H' as [H'|H']; [first [discriminate H'|injection H' as <-; reflexivity]|]); destruct H'). clear.
    constructor. constructor; [|constructor; [|constructor]].
    + eapply inc_same with (k := IStr); try reflexivity. cbn. auto.
    + (* moved out *)
      constructor; [|constructor].
      eapply (re_out _ _ _ _ _ _ _ _ (AStr [SPlain 120]) (CStr (lit "x")) _ [104] (lit "/h") (CStr (lit "x"))); try reflexivity; try (constructor; reflexivity).
  - exists (CStr (lit "{not over")). split; [reflexivity|]. intros. constructor.
Qed.
Example C70_ex : exists o o', from_file proj g0 (lit "a") = Some (OOk o) /\ obj_len o = 3 /\ from_file proj2 g0 (lit "a") = Some (OOk o') /\ obj_eqb o' o = true.
Proof.
  assert (E : exists o, from_file proj g0 (lit "a") = Some (OOk o) /\ obj_len o = 3) by (eexists; split; vm_compute; reflexivity).
  destruct E as (o & E & Ln).
  destruct (C70_file proj proj2 proj_ar ar2 twin2 true g0 (lit "a") (lit "a") (lit "/a") (lit "/a") in_a o) as (o' & E' & _ & Eq & _).
  - apply proj_coherent.
  - apply proj2_coherent.
  - apply proj_describes.
  - apply proj2_describes.
  - apply proj_reorganized.
  - intros _ full c H. unfold ar2 in H.
    destruct (str_eqb full (lit "/a")); [injection H as <-; vm_compute; discriminate|]. destruct (str_eqb full (lit "/c")); [injection H as <-; vm_compute; discriminate|].
    destruct (str_eqb full (lit "/d")); [injection H as <-; vm_compute; discriminate|]. destruct (str_eqb full (lit "/f")); [injection H as <-; vm_compute; discriminate|].
    destruct (str_eqb full (lit "/h")); [injection H as <-; vm_compute; discriminate|discriminate].
  - apply g0_ok.
  - reflexivity.
  - reflexivity.
  - cbn. auto.
  - reflexivity.
  - exact E.
  - apply respects_b. vm_compute. reflexivity.
  - exists o, o'. auto.
Qed.
(** Two steps: the project is reorganized, then the file a is laid out in another way. *)
Definition proj3 : fsys :=
  mkfs (fs_resolve proj2)
    [ mkfe (Some (lit "/a")) (inl (10 :: show_items a2)); mkfe (Some (lit "/c")) (inl (show_list c2)); mkfe (Some (lit "/d")) (inl (lit "{not over"));
      mkfe (Some (lit "/f")) (inl (show_items f2)); mkfe (Some (lit "/h")) (inl (lit "x")) ] (fun _ => lit "no such file").
Lemma proj3_canon p : canon proj2 p = canon proj3 p.
Proof.
  unfold canon, fs_entry. destruct (path_parent p); [|reflexivity]. cbn [fs_resolve proj3]. destruct (fs_resolve proj2 p) as [i|]; [|reflexivity].
  cbn [fs_files proj2 proj3]. do 5 (destruct i as [|i]; [reflexivity|]). destruct i; reflexivity.
Qed.
Lemma proj3_describes : describes proj3 ar2.
Proof.
  intros path full c H Ha. rewrite <- proj3_canon in H. apply proj2_paths in H. cbn [In] in H.
  repeat (destruct H as [H|H]; [injection H as <- <-; vm_compute in Ha; injection Ha as <-|]); [| | | | |destruct H].
  - exists (10 :: show_items a2). split; [eexists _, _; repeat split; discriminate|].
    destruct (show_doc a2 eq_refl) as (w & t & c & E & Ws & R). exists (10 :: w), t, c. split; [rewrite E; reflexivity|].
    split; [apply ws_char; [reflexivity|exact Ws]|exact R].
  - exists (show_list c2). split; [eexists _, _; repeat split; discriminate|]. exists [], (show_list c2), []. rewrite app_nil_r. split; [reflexivity|]. split; [constructor|]. split; [|left; reflexivity].
    apply show_elems; [|reflexivity]. apply Forall_forall. intros e _. apply show_ok.
  - exists (lit "{not over"). split; [eexists _, _; repeat split; discriminate|]. reflexivity.
  - exists (show_items f2). split; [eexists _, _; repeat split; discriminate|]. apply show_doc. reflexivity.
  - exists (lit "x"). split; [eexists _, _; repeat split; discriminate|]. reflexivity.
Qed.
Example C70_steps_ex : exists o, g_ok g0 /\ steps (Project proj proj_ar (lit "a")) (Project proj3 ar2 (lit "a")) /\
  loads_to g0 (Project proj proj_ar (lit "a")) o /\ obj_len o = 3.
Proof.
  assert (E : exists o, from_file proj g0 (lit "a") = Some (OOk o) /\ obj_len o = 3) by (eexists; split; vm_compute; reflexivity).
  destruct E as (o & E & Ln). exists o. split; [apply g0_ok|]. split; [|split; [split; [exact E|apply respects_b; vm_compute; reflexivity]|exact Ln]].
  assert (W2 : well (Project proj2 ar2 (lit "a"))) by (split; [apply proj2_coherent|split; [apply proj2_describes|]]; exists (lit "/a"), a2; split; reflexivity).
  eapply ss_more with (q := Project proj2 ar2 (lit "a")); [eapply ss_more with (q := Project proj proj_ar (lit "a")); [apply ss_none|..]|..].
  - split; [apply proj_coherent|]. split; [apply proj_describes|]. exists (lit "/a"), in_a. split; reflexivity.
  - apply (st_reorganize proj proj2 proj_ar ar2 twin2 true (lit "a") (lit "a") (lit "/a") (lit "/a") proj_reorganized).
    + intros _ full c H. unfold ar2 in H.
      destruct (str_eqb full (lit "/a")); [injection H as <-; vm_compute; discriminate|]. destruct (str_eqb full (lit "/c")); [injection H as <-; vm_compute; discriminate|].
      destruct (str_eqb full (lit "/d")); [injection H as <-; vm_compute; discriminate|]. destruct (str_eqb full (lit "/f")); [injection H as <-; vm_compute; discriminate|].
      destruct (str_eqb full (lit "/h")); [injection H as <-; vm_compute; discriminate|discriminate].
    + reflexivity.
    + reflexivity.
    + cbn. auto.
  - exact W2.
  - exact W2.
  - apply st_replace; [apply proj3_canon|]. intros full. left. reflexivity.
  - split; [|split; [apply proj3_describes|]; exists (lit "/a"), a2; split; reflexivity].
    intros p p' full q H H'. rewrite <- !proj3_canon in *. exact (proj2_coherent p p' full q H H').
Qed.
(** A literal that uses something around it cannot be moved out: [@g] in the file u. *)
Definition with_u (u : str) : fsys :=
  mkfs (fun p => match p with [117] => Some 0%nat | _ => None end) [mkfe (Some (lit "/u")) (inl u)] (fun _ => lit "no such file").
Definition text_in : str := lit "@g: 1 y: [@g]".
Definition text_out : str := lit "@g: 1 y: <Arr " ++ [34; 117; 34] ++ [62].
Theorem C70_alone_refuted : exists o e,
  from_str (with_u (lit "@g")) g0 text_in = Some (OOk o) /\ from_str (with_u (lit "@g")) g0 text_out = Some (OErr e).
Proof. do 2 eexists. split; vm_compute; reflexivity. Qed.
End Ex.
