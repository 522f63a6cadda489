(** * PropAfresh: a project of several files means what it says, file by file (C67). *)
From Verif Require Export AfreshOp PropRefactor PropInclude.
From Verif Require Import Render PropRound PropHistory PropNames.
From Coq Require String.
Import String.StringSyntax.
Open Scope N_scope.

Section P.
Context `{U : Unicode}.
Lemma corr_alike W o o' : co W (VObj o) (VObj o') -> alike o o'.
Proof. intros C. apply History.corr_erase in C. cbn [erase] in C. injection C as C. exact C. Qed.

(** C67.  Take a text whose includes, read afresh each time, to whatever depth, have values.  Then it loads, and
    the Obj is the same data.  So that each file is parsed only once, and that its value is shared, cannot be seen. *)
Theorem C67_str fs ar g n items text o x : coherent fs -> describes fs ar -> g_ok g ->
  r_doc items text -> ev_doc (afresh fs ar n None) limit64 items ([], init_sh g) = Some (o, x) ->
  exists o', from_str fs g text = Some (OOk o') /\ alike o o' /\ obj_eqb o o' = true /\
    respects ar (sh_log (snd (parse_obj_str fs g text))).
Proof.
  intros Coh Des Gg R E.
  assert (Sv : serves (table fs ar) (afresh fs ar n None) (cached fs ar n [] None)) by (apply cached_serves; auto; intros c m []).
  assert (Ec : ev_contents (afresh fs ar n None) (CObj items) ([], init_sh g) = Some (VObj o, x)) by (cbn [ev_contents]; unfold ebind; rewrite E; reflexivity).
  destruct (contents_move _ (table_g fs ar) _ _ (CObj items) [] (init_sh g) (init_sh g) _ _ Sv (ids_nil _ _ Gg Gg) (table_nil fs ar _ (init_sh g) eq_refl) Ec)
    as (v' & y' & W & E' & _ & C & _).
  cbn [ev_contents] in E'. apply ebind_some in E' as (o' & y & E' & E2). injection E2 as <- <-.
  assert (Ld : from_str fs g text = Some (OOk o')).
  { apply C43_str. exists items, (cached fs ar n [] None), (init_sh g), y. split; [exact R|]. split; [|split; [apply IncSemProofs.same_refl|exact E']].
    intros k p z w z' _ Ei. exact (cached_includes fs ar Des n [] None k p z w z' Ei). }
  exists o'. pose proof (corr_alike _ _ _ C) as Al. split; [exact Ld|]. split; [exact Al|].
  split; [apply alike_eq; [eapply loaded_any; eauto|apply alike_sym; exact Al]|].
  unfold from_str in Ld. destruct (parse_obj_str fs g text) as [r sh'] eqn:Rn. destruct r as [o1|e| |]; try discriminate Ld.
  eapply op_str; eauto.
Qed.
(** A file: loading it is including it. *)
Theorem C67_file fs ar g n path o x : coherent fs -> describes fs ar -> g_ok g ->
  afresh fs ar n None IObj path ([], init_sh g) = Some (VObj o, x) ->
  exists o', from_file fs g path = Some (OOk o') /\ alike o o' /\ obj_eqb o o' = true /\
    respects ar (sh_log (snd (parse_obj_file fs g path))).
Proof.
  intros Coh Des Gg E. destruct n as [|n]; [discriminate|]. cbn [afresh target] in E.
  destruct (canon fs path) as [full|] eqn:Ef; [|discriminate]. destruct (ar full) as [c|] eqn:Ea; [|discriminate].
  destruct (kind_eqb IObj (kind_in c)) eqn:K; [|discriminate]. apply kind_eqb_eq in K. destruct c as [t|items|es|es]; try discriminate. clear K.
  unfold apart in E. cbn [fst snd] in E.
  destruct (ev_contents (afresh fs ar n (Some path)) (CObj items) ([], init_sh g)) as [[w y]|] eqn:Ec; [|discriminate]. injection E as -> _.
  destruct (least fs ar Coh n path full _ (init_sh g) _ Ef Ea Gg Ec) as (m & Lm & Em & Min).
  assert (Sv : serves (table fs ar) (afresh fs ar m (Some path)) (cached fs ar m [full] (Some path))).
  { apply cached_serves; auto. intros c m' [<-|[]] L. apply Min; exact L. }
  destruct (contents_move _ (table_g fs ar) _ _ (CObj items) [] (init_sh g) (init_sh g) _ _ Sv (ids_nil _ _ Gg Gg) (table_nil fs ar _ (init_sh g) eq_refl) Em)
    as (v' & y' & W & E' & _ & C & _).
  cbn [ev_contents] in E'. apply ebind_some in E' as (o' & z & E' & E2). injection E2 as <- <-.
  destruct (Des _ _ _ Ef Ea) as (text & (i & fe & He & Hr & _) & Wr). cbn [written] in Wr.
  assert (Hc : fe_canon fe = Some full) by (unfold canon in Ef; rewrite He in Ef; exact Ef).
  assert (Ld : from_file fs g path = Some (OOk o')).
  { apply (C43_file fs g path i fe text full o' He Hr Hc). exists items, (cached fs ar m [full] (Some path)), (init_sh g), z. split; [exact Wr|].
    split; [|split; [apply IncSemProofs.same_refl|exact E']].
    intros k p a w b _ Ei. exact (cached_includes fs ar Des m [full] (Some path) k p a w b Ei). }
  exists o'. pose proof (corr_alike _ _ _ C) as Al. split; [exact Ld|]. split; [exact Al|].
  split; [apply alike_eq; [|apply alike_sym; exact Al]; apply any_good; eapply loaded_wf; right; eauto|].
  unfold from_file in Ld. destruct (parse_obj_file fs g path) as [r sh'] eqn:Rn. destruct r as [o1|e| |]; try discriminate Ld.
  eapply op_file; eauto.
Qed.
(** Conversely: a load that succeeds, including every file as what it is, gives what reading every include afresh
    gives, and no more includes than there are files need to be nested for that. *)
Theorem C67_str_back fs ar g items text o' : coherent fs -> describes fs ar -> g_ok g -> r_doc items text ->
  from_str fs g text = Some (OOk o') -> respects ar (sh_log (snd (parse_obj_str fs g text))) ->
  exists o x, ev_doc (afresh fs ar (S (List.length (fs_files fs))) None) limit64 items ([], init_sh g) = Some (o, x) /\ alike o o'.
Proof.
  intros Coh Des Gg R E Rs. unfold from_str in E. unfold parse_obj_str in *.
  destruct (run_stream (parse_obj_stream fs (load_file fs (inc_fuel fs)) (stream_fuel text)) None text (init_sh g)) as [[o1|e| |] sh'] eqn:Rn; cbn in E; try discriminate.
  injection E as ->. cbn [snd] in Rs.
  apply (run_ok_agr _ _ _ _ _ _ _ _ (@obj_stream_agr U (fun _ => False) fs (load_file fs (inc_fuel fs)) None limit64
      (fun d E => E) (fun d E => or_introl E) (load_wf fs (inc_fuel fs)) _ items text (mkst None text 1 1 [] (init_sh g)) R eq_refl eq_refl (okst_init None text (init_sh g) (Forall_nil _)))) in Rn as (gl & Ev & _).
  assert (Ec : ev_contents (inc_of fs (load_file fs (inc_fuel fs)) None) (CObj items) ([], init_sh g) = Some (VObj o', (gl, sh'))).
  { cbn [ev_contents]. unfold ebind. rewrite Ev. reflexivity. }
  apply (bk_contents fs ar) in Ec; [|exact Rs].
  destruct (contents_move _ (Tb_g fs ar) _ _ (CObj items) [] (init_sh g) (init_sh g) _ _ (conv_serves fs ar Coh Des (inc_fuel fs) None)
    (ids_nil _ _ Gg Gg) (Tb_nil fs ar (init_sh g) (init_sh g) eq_refl) Ec) as (v' & y' & W & E' & _ & C & _).
  cbn [ev_contents] in E'. apply ebind_some in E' as (o & y & E' & E2). injection E2 as <- <-.
  exists o, y. split; [exact E'|]. apply alike_sym. exact (corr_alike _ _ _ C).
Qed.
Theorem C67_file_back fs ar g path full items o' : coherent fs -> describes fs ar -> g_ok g ->
  canon fs path = Some full -> ar full = Some (CObj items) ->
  from_file fs g path = Some (OOk o') -> respects ar (sh_log (snd (parse_obj_file fs g path))) ->
  exists o x, afresh fs ar (S (List.length (fs_files fs))) None IObj path ([], init_sh g) = Some (VObj o, x) /\ alike o o'.
Proof.
  intros Coh Des Gg Ef Ea E Rs. unfold from_file in E.
  destruct (parse_obj_file fs g path) as [[o1|e| |] sh'] eqn:Rn; cbn in E; try discriminate. injection E as ->. cbn [snd] in Rs.
  destruct (file_back fs ar Coh Des g path full items o' sh' Gg Ef Ea Rn Rs) as (o & y & W & E' & C & _).
  exists o, ([], snd y). split; [|apply alike_sym; exact (corr_alike _ _ _ C)].
  cbn [afresh target]. rewrite Ef, Ea. cbn [kind_in kind_eqb]. unfold apart. cbn [fst snd]. fold (files fs). rewrite E'. reflexivity.
Qed.
(** So the loads that include every file as what it is are exactly those whose includes, read afresh, have values. *)
Theorem C67_str_iff fs ar g items text d : coherent fs -> describes fs ar -> g_ok g -> r_doc items text ->
  (exists o, from_str fs g text = Some (OOk o) /\ respects ar (sh_log (snd (parse_obj_str fs g text))) /\ alike d o) <->
  (exists n o x, ev_doc (afresh fs ar n None) limit64 items ([], init_sh g) = Some (o, x) /\ alike d o).
Proof.
  intros Coh Des Gg R. split.
  - intros (o' & E & Rs & Al). destruct (C67_str_back fs ar g items text o' Coh Des Gg R E Rs) as (o & x & A & B).
    exists (S (List.length (fs_files fs))), o, x. split; [exact A|]. unfold alike in *. congruence.
  - intros (n & o & x & A & Al). destruct (C67_str fs ar g n items text o x Coh Des Gg R A) as (o' & E & B & _ & Rs).
    exists o'. split; [exact E|]. split; [exact Rs|]. unfold alike in *. congruence.
Qed.
Theorem C67_file_iff fs ar g path full items d : coherent fs -> describes fs ar -> g_ok g ->
  canon fs path = Some full -> ar full = Some (CObj items) ->
  (exists o, from_file fs g path = Some (OOk o) /\ respects ar (sh_log (snd (parse_obj_file fs g path))) /\ alike d o) <->
  (exists n o x, afresh fs ar n None IObj path ([], init_sh g) = Some (VObj o, x) /\ alike d o).
Proof.
  intros Coh Des Gg Ef Ea. split.
  - intros (o' & E & Rs & Al). destruct (C67_file_back fs ar g path full items o' Coh Des Gg Ef Ea E Rs) as (o & x & A & B).
    exists (S (List.length (fs_files fs))), o, x. split; [exact A|]. unfold alike in *. congruence.
  - intros (n & o & x & A & Al). destruct (C67_file fs ar g n path o x Coh Des Gg A) as (o' & E & B & _ & Rs).
    exists o'. split; [exact E|]. split; [exact Rs|]. unfold alike in *. congruence.
Qed.
(** What an include means does not depend on how deep includes may be nested, nor on the globals and the
    process at that moment. *)
Theorem C67_depth fs ar n m file k p x r r' :
  afresh fs ar n file k p x = Some r -> afresh fs ar m file k p x = Some r' -> r = r'.
Proof.
  intros E E'. apply (afresh_le fs ar n (max n m) _ _ _ _ _ (Nat.le_max_l _ _)) in E.
  apply (afresh_le fs ar m (max n m) _ _ _ _ _ (Nat.le_max_r _ _)) in E'. congruence.
Qed.
Theorem C67_anywhere fs ar n file k p gl gl' h h' v x : coherent fs -> g_ok (sh_g h) -> g_ok (sh_g h') ->
  afresh fs ar n file k p (gl, h) = Some (v, x) ->
  exists v' x', afresh fs ar n file k p (gl', h') = Some (v', x') /\ erase v = erase v'.
Proof.
  intros Coh G G' E. destruct (pure_serves fs ar Coh n file file (fun _ => eq_refl) [] gl gl' h h' k p v x (ids_nil _ _ G G') I E)
    as (_ & v' & h1 & W & E' & _ & C & _). exists v', (gl', h1). split; [exact E'|]. eapply History.corr_erase; eauto.
Qed.
End P.

(** ** A concrete project *)
Section Ex.
#[local] Instance ascii : Unicode := {| u_alpha := fun _ => false; u_debug := fun c => [c] |}.
(** a: x: <"b"> y: <Arr "c"> z: <"b">     b: u: <Arr "c"> v: <Str "d">      c: 1 <Str "d">, d: any text *)
Definition inc_as (k : str) (p : N) : expr := Ex (AInc (Ex (AVar false k) []) (Some (Ex (AStr [SPlain p]) []))) [].
Definition inc_obj (p : N) : expr := Ex (AInc (Ex (AStr [SPlain p]) []) None) [].
Definition in_a : list (str * expr) := [(lit "x", inc_obj 98); (lit "y", inc_as (lit "Arr") 99); (lit "z", inc_obj 98)].
Definition in_b : list (str * expr) := [(lit "u", inc_as (lit "Arr") 99); (lit "v", inc_as (lit "Str") 100)].
Definition in_c : list expr := [inc_as (lit "Str") 100; Ex (AStr [SPlain 120]) []].
Definition show_list (es : list expr) : str := flat_map (fun e => show_expr e ++ [32]) es.
Definition proj : fsys :=
  mkfs (fun p => match p with [97] => Some 0%nat | [98] => Some 1%nat | [99] => Some 2%nat | [100] => Some 3%nat | _ => None end)
    [ mkfe (Some (lit "/a")) (inl (show_items in_a)); mkfe (Some (lit "/b")) (inl (show_items in_b));
      mkfe (Some (lit "/c")) (inl (show_list in_c)); mkfe (Some (lit "/d")) (inl (lit "{not over")) ] (fun _ => lit "no such file").
Definition proj_ar : archive := fun full =>
  if str_eqb full (lit "/a") then Some (CObj in_a) else if str_eqb full (lit "/b") then Some (CObj in_b)
  else if str_eqb full (lit "/c") then Some (CArr in_c) else if str_eqb full (lit "/d") then Some (CStr (lit "{not over")) else None.
Lemma proj_paths path full : canon proj path = Some full ->
  (path = [97] /\ full = lit "/a") \/ (path = [98] /\ full = lit "/b") \/ (path = [99] /\ full = lit "/c") \/ (path = [100] /\ full = lit "/d").
Proof.
  unfold canon, fs_entry. destruct (path_parent path); [|discriminate]. cbn [fs_resolve proj].
  destruct path as [|c [|d r]]; try discriminate; [|destruct c as [|[]]; try discriminate; repeat (destruct p; try discriminate)].
  destruct (N.eq_dec c 97) as [->|N1]; [intros E; injection E as <-; auto|]. destruct (N.eq_dec c 98) as [->|N2]; [intros E; injection E as <-; auto|].
  destruct (N.eq_dec c 99) as [->|N3]; [intros E; injection E as <-; auto|]. destruct (N.eq_dec c 100) as [->|N4]; [intros E; injection E as <-; auto|].
  destruct c as [|c]; [discriminate|]. repeat (destruct c as [c|c|]; try discriminate); congruence.
Qed.
Example C67_ex : exists o o' x, coherent proj /\ describes proj proj_ar /\ g_ok g0 /\
  afresh proj proj_ar 4 None IObj (lit "a") ([], init_sh g0) = Some (VObj o, x) /\ from_file proj g0 (lit "a") = Some (OOk o') /\
  obj_len o = 3 /\
  (* afresh: two instances of b; loaded: one *)
  (match obj_get o (lit "x"), obj_get o (lit "z") with Some (VObj p), Some (VObj q) => obj_id p =? obj_id q | _, _ => true end) = false /\
  (match obj_get o' (lit "x"), obj_get o' (lit "z") with Some (VObj p), Some (VObj q) => obj_id p =? obj_id q | _, _ => false end) = true.
Proof.
  eexists. eexists. eexists. split.
  { intros path path' full q H H'. apply proj_paths in H, H'.
    destruct H as [[-> ->]|[[-> ->]|[[-> ->]|[-> ->]]]], H' as [[-> H]|[[-> H]|[[-> H]|[-> H]]]]; try reflexivity; discriminate H. }
  split.
  { intros path full c H Ha. apply proj_paths in H. destruct H as [[-> ->]|[[-> ->]|[[-> ->]|[-> ->]]]]; vm_compute in Ha; injection Ha as <-.
    - exists (show_items in_a). split; [eexists _, _; repeat split; discriminate|]. apply show_doc. reflexivity.
    - exists (show_items in_b). split; [eexists _, _; repeat split; discriminate|]. apply show_doc. reflexivity.
    - exists (show_list in_c). split; [eexists _, _; repeat split; discriminate|]. exists [], (show_list in_c), []. rewrite app_nil_r. split; [reflexivity|]. split; [constructor|]. split; [|left; reflexivity].
      apply show_elems; [|reflexivity]. apply Forall_forall. intros e _. apply show_ok.
    - exists (lit "{not over"). split; [eexists _, _; repeat split; discriminate|]. reflexivity. }
  split; [split; [intros [] ? H; discriminate H|]; split; [intros [] ? ? H; discriminate H|intros ? []]|].
  split; [vm_compute; reflexivity|]. split; [vm_compute; reflexivity|]. split; [reflexivity|]. split; reflexivity.
Qed.
(** The load of a includes every file as what it is. *)
Example C67_back_ex : exists o', from_file proj g0 (lit "a") = Some (OOk o') /\
  respects proj_ar (sh_log (snd (parse_obj_file proj g0 (lit "a")))) /\
  List.length (filter (fun e => match e with EInc _ _ _ => true | _ => false end) (sh_log (snd (parse_obj_file proj g0 (lit "a"))))) = 6%nat.
Proof. eexists. split; [vm_compute; reflexivity|]. split; [apply respects_b; vm_compute; reflexivity|]. vm_compute. reflexivity. Qed.
(** That every file has one kind is needed: after <Str "b">, the include <"b"> is not the Obj in b but its text. *)
Definition two_kinds : list (str * expr) := [(lit "x", inc_as (lit "Str") 98); (lit "y", inc_obj 98)].
Theorem C67_two_kinds_refuted : exists o o', from_str proj g0 (show_items two_kinds) = Some (OOk o) /\
  obj_get o (lit "y") = Some (VStr (show_items in_b)) /\
  from_str proj g0 (show_items [(lit "y", inc_obj 98)]) = Some (OOk o') /\
  match obj_get o' (lit "y") with Some (VObj p) => obj_len p = 2 | _ => False end.
Proof. eexists. eexists. split; [vm_compute; reflexivity|]. split; [reflexivity|]. split; [vm_compute; reflexivity|]. reflexivity. Qed.
End Ex.
