(** * PropFieldNames: the name of a field means nothing (C74). *)
From Verif Require Export FieldText PropAfresh.
From Verif Require Import AfreshConv Back Complete PropRefactor Render PropRound PropHistory PropNames.
From Coq Require String.
Import String.StringSyntax.
Open Scope N_scope.

Section P.
Context `{U : Unicode}.
(** ** Data *)
Lemma ren_erase r : (forall v, erase (ren_value r v) = ren_value r (erase v)) /\ (forall o, erase_obj (ren_obj r o) = ren_obj r (erase_obj o)).
Proof.
  assert (M : forall vs, Forall (fun v => erase (ren_value r v) = ren_value r (erase v)) vs -> map erase (map (ren_value r) vs) = map (ren_value r) (map erase vs)).
  { intros vs F. rewrite !map_map. apply map_ext_in. intros v I. rewrite Forall_forall in F. auto. }
  apply (value_obj_ind2 (fun v => erase (ren_value r v) = ren_value r (erase v)) (fun o => erase_obj (ren_obj r o) = ren_obj r (erase_obj o))); try reflexivity.
  - intros i t vs F. cbn [ren_value erase]. rewrite M by exact F. reflexivity.
  - intros i t vs F. cbn [ren_value erase]. rewrite M by exact F. reflexivity.
  - intros o E. cbn [ren_value erase]. rewrite E. reflexivity.
  - intros i ps par F E. cbn [ren_obj erase_obj]. f_equal.
    + rewrite !map_map. apply map_ext_in. intros [f v] I. f_equal. rewrite Forall_forall in F. apply F. apply in_map_iff. exists (f, v). auto.
    + destruct par as [p|]; [|reflexivity]. rewrite (E p eq_refl). reflexivity.
Qed.
Lemma ren_twice r : (forall n, r (r n) = n) -> (forall v, ren_value r (ren_value r v) = v) /\ (forall o, ren_obj r (ren_obj r o) = o).
Proof.
  intros R.
  assert (M : forall vs, Forall (fun v => ren_value r (ren_value r v) = v) vs -> map (ren_value r) (map (ren_value r) vs) = vs).
  { intros vs F. rewrite map_map. rewrite <- (map_id vs) at 2. apply map_ext_in. intros v I. rewrite Forall_forall in F. auto. }
  apply (value_obj_ind2 (fun v => ren_value r (ren_value r v) = v) (fun o => ren_obj r (ren_obj r o) = o)); try reflexivity.
  - intros i t vs F. cbn [ren_value]. rewrite M by exact F. reflexivity.
  - intros i t vs F. cbn [ren_value]. rewrite M by exact F. reflexivity.
  - intros o E. cbn [ren_value]. rewrite E. reflexivity.
  - intros i ps par F E. cbn [ren_obj]. f_equal.
    + rewrite map_map. rewrite <- (map_id ps) at 2. apply map_ext_in. intros [f v] I. rewrite R. f_equal. rewrite Forall_forall in F. apply F.
      apply in_map_iff. exists (f, v). auto.
    + destruct par as [p|]; [|reflexivity]. rewrite (E p eq_refl). reflexivity.
Qed.
Lemma exchanged_twice x y o : exchanged x y (exchanged x y o) = o.
Proof. apply ren_twice. apply sw_sw. Qed.
Lemma exchanged_alike x y o o' : alike o o' -> alike (exchanged x y o) (exchanged x y o').
Proof. unfold alike, exchanged. intros E. rewrite !(proj2 (ren_erase _)), E. reflexivity. Qed.

(** What the exchange does to an Obj, in terms of its accessors. *)
Theorem C74_exchanged x y o f : 
  obj_get (exchanged x y o) (swap x y f) = option_map (ren_value (swap x y)) (obj_get o f) /\
  obj_len (exchanged x y o) = obj_len o /\ obj_parent (exchanged x y o) = option_map (exchanged x y) (obj_parent o) /\
  obj_id (exchanged x y o) = obj_id o.
Proof.
  split; [|destruct o as [i ps [p|]]; unfold exchanged, obj_len; cbn [ren_obj obj_pairs obj_parent obj_id option_map]; rewrite map_length; auto].
  unfold exchanged. revert o. apply (obj_ind2 (fun _ => True)); auto. intros i ps par _ IH. cbn [ren_obj obj_get].
  change (map _ ps) with (rps x y ps). rewrite assoc_rps. destruct (assoc f ps) as [v|]; [reflexivity|]. cbn [option_map]. destruct par as [p|]; [apply IH|]; reflexivity.
Qed.

(** ** Texts that include nothing: exactly the same Obj, with the names exchanged *)
Lemma okinc_none fs n file k p s : okinc fs (fun _ => None) n file k p s = None.
Proof.
  unfold okinc. destruct s as [gl sh]. rewrite inc_of_eq. destruct (canon fs (target file p)); [|reflexivity]. destruct (opened _ _ _); [|reflexivity].
  destruct (mem_str _ _); [reflexivity|]. destruct (assoc _ _); [reflexivity|]. destruct (load_file _ _ _ _ _) as [[]]; reflexivity.
Qed.
Lemma more_includes inc inc' lim items x r : (forall k p s z, inc k p s = Some z -> inc' k p s = Some z) ->
  ev_doc inc lim items x = Some r -> ev_doc inc' lim items x = Some r.
Proof.
  intros H E. destruct r as [o z]. refine (proj2 (bk_doc inc inc' lim (fun _ _ => True) (fun _ => True) _ _ _ _ _ _ items x o z E) I); auto.
  intros k p s w z' Ei. split; auto.
Qed.
Lemma str_meaning_log fs g items text o y : r_doc items text -> str_meaning fs limit64 g items = Some (o, y) ->
  from_str fs g text = Some (OOk o) /\ snd (parse_obj_str fs g text) = snd y.
Proof.
  intros R E. pose proof (run_agree fs None (init_sh g) items text (Forall_nil _) R) as A. destruct (str_total fs g text) as (res & sh & E1 & T).
  unfold from_str. rewrite E1. unfold parse_obj_str in E1. rewrite E1 in A. unfold str_meaning in E. destruct T as [[o' ->]|[e ->]].
  - destruct A as [gl A]. rewrite A in E. injection E as -> <-. split; reflexivity.
  - congruence.
Qed.
Lemma meaning_of_load fs g items text o : r_doc items text -> from_str fs g text = Some (OOk o) ->
  exists gl, str_meaning fs limit64 g items = Some (o, (gl, snd (parse_obj_str fs g text))).
Proof.
  intros R E. destruct (proj1 (str_ok fs g items text R o) E) as ([gl sh] & M). exists gl. rewrite (proj2 (str_meaning_log fs g items text o _ R M)). exact M.
Qed.
Lemma alone_step fs g x y text o : legal_field x -> legal_field y ->
  from_str fs g text = Some (OOk o) -> no_includes (sh_log (snd (parse_obj_str fs g text))) ->
  from_str fs g (swap_fields x y text) = Some (OOk (exchanged x y o)) /\ no_includes (sh_log (snd (parse_obj_str fs g (swap_fields x y text)))).
Proof.
  intros Hx Hy E N. destruct (from_str_doc fs g text o E) as (items & R). destruct (meaning_of_load fs g items text o R E) as (gl & M).
  assert (Ec : ev_contents (inc_of fs (load_file fs (inc_fuel fs)) None) (CObj items) ([], init_sh g) = Some (VObj o, (gl, snd (parse_obj_str fs g text)))).
  { cbn [ev_contents]. unfold ebind. unfold str_meaning, meaning, include_meaning in M. rewrite M. reflexivity. }
  apply (bk_contents fs (fun _ => None)) in Ec; [|intros full k v I; exfalso; exact (N full k v I)].
  cbn [ev_contents] in Ec. apply ebind_some in Ec as (o1 & s1 & Ec & E2). injection E2 as E3 E4. subst o1 s1.
  assert (Q : eqv x y (ren_obj (swap x y)) (ev_doc (okinc fs (fun _ => None) (inc_fuel fs) None) limit64 items)
    (ev_doc (okinc fs (fun _ => None) (inc_fuel fs) None) limit64 (fi (swap x y) items))).
  { apply q_doc; auto. intros k p s. rewrite !okinc_none. reflexivity. }
  specialize (Q ([], init_sh g)). rewrite Ec in Q. cbn [rres] in Q. fold (exchanged x y o) in Q.
  apply (more_includes _ (include_meaning fs None)) in Q; [|intros k p s z Ez; rewrite okinc_none in Ez; discriminate].
  destruct (str_meaning_log fs g _ _ _ _ (fields_doc x y Hx Hy items text R) Q) as [A B]. split; [exact A|]. rewrite B. exact N.
Qed.
(** A text that includes nothing and the text with two names of fields exchanged load to the same Obj, down to the identity
    of its containers, but for those names. *)
Theorem C74_alone fs g x y text o : legal_field x -> legal_field y ->
  (from_str fs g text = Some (OOk o) /\ no_includes (sh_log (snd (parse_obj_str fs g text)))) <->
  (from_str fs g (swap_fields x y text) = Some (OOk (exchanged x y o)) /\ no_includes (sh_log (snd (parse_obj_str fs g (swap_fields x y text))))).
Proof.
  intros Hx Hy. split; intros [E N]; [apply alone_step; auto|].
  destruct (alone_step fs g x y _ _ Hx Hy E N) as [A B]. rewrite swap_fields_twice in A, B by auto. rewrite exchanged_twice in A. auto.
Qed.
(** Where there are no files: one text is rejected iff the other is. *)
Theorem C74_no_files fs g x y text : (forall p, canon fs p = None) -> legal_field x -> legal_field y ->
  (forall o, from_str fs g text = Some (OOk o) <-> from_str fs g (swap_fields x y text) = Some (OOk (exchanged x y o))) /\
  ((exists e, from_str fs g text = Some (OErr e)) <-> exists e, from_str fs g (swap_fields x y text) = Some (OErr e)).
Proof.
  intros C Hx Hy.
  assert (St : forall t o, from_str fs g t = Some (OOk o) -> from_str fs g (swap_fields x y t) = Some (OOk (exchanged x y o))).
  { intros t o E. destruct (from_str_doc fs g t o E) as (items & R). destruct (proj1 (str_ok fs g items t R o) E) as ([gl sh] & M).
    apply (str_ok fs g _ _ (fields_doc x y Hx Hy items t R)). unfold str_meaning, meaning in *.
    assert (Q : eqv x y (ren_obj (swap x y)) (ev_doc (include_meaning fs None) limit64 items) (ev_doc (include_meaning fs None) limit64 (fi (swap x y) items))).
    { apply q_doc; auto. intros k p [gl1 sh1]. unfold include_meaning, rst. rewrite !inc_of_eq, C. reflexivity. }
    specialize (Q ([], init_sh g)). rewrite M in Q. eexists. exact Q. }
  assert (I : forall o, from_str fs g text = Some (OOk o) <-> from_str fs g (swap_fields x y text) = Some (OOk (exchanged x y o))).
  { intros o. split; [apply St|]. intros E. apply St in E. rewrite swap_fields_twice, exchanged_twice in E by auto. exact E. }
  split; [exact I|].
  destruct (C03_from_str_returns fs g text) as [[o|e] E], (C03_from_str_returns fs g (swap_fields x y text)) as [[o'|e'] E'].
  - rewrite E, E'. split; intros (e & X); discriminate.
  - apply I in E. congruence.
  - rewrite <- (exchanged_twice x y o') in E'. apply I in E'. congruence.
  - split; eauto.
Qed.

(** ** Projects: the names are exchanged in all files that are not included as text *)
Definition ar_ex (x y : str) (ar : archive) : archive := fun full => option_map (fc (swap x y)) (ar full).
Lemma ex_describes x y ar fs fs' : legal_field x -> legal_field y -> describes fs ar -> files_exchanged x y ar fs fs' -> describes fs' (ar_ex x y ar).
Proof.
  intros Hx Hy D X path full c E A. destruct (X path) as [Ec H]. rewrite Ec in E. unfold ar_ex in A. destruct (ar full) as [c0|] eqn:A0; [|discriminate].
  injection A as <-. destruct (D path full c0 E A0) as (text & R & W). specialize (H full c0 text E A0 R). eexists. split; [exact H|].
  destruct c0 as [t|its|es|es]; cbn [fc written] in *; auto using fields_doc, fields_list.
Qed.
Lemma ex_coherent x y ar fs fs' : files_exchanged x y ar fs fs' -> coherent fs -> coherent fs'.
Proof. intros X C p p' full q. rewrite !(proj1 (X _)). apply C. Qed.
Lemma ex_respects x y ar log : respects (ar_ex x y ar) log <-> respects ar log.
Proof.
  split; intros H full k v I; destruct (H full k v I) as (c & A & K); unfold ar_ex in *.
  - destruct (ar full) as [c0|]; [|discriminate]. injection A as <-. exists c0. split; [reflexivity|]. rewrite kind_fc in K. exact K.
  - rewrite A. eexists. split; [reflexivity|]. rewrite kind_fc. exact K.
Qed.
Section Project.
Variables (x y : str) (ar : archive) (fs fs' : fsys) (g : gstate).
Hypothesis Hx : legal_field x.
Hypothesis Hy : legal_field y.
Hypothesis Coh : coherent fs.
Hypothesis Des : describes fs ar.
Hypothesis Ex : files_exchanged x y ar fs fs'.
Hypothesis Gg : g_ok g.
Let Q := fun n file => q_afresh x y Hx Hy fs fs' ar (ar_ex x y ar) (fun p => proj1 (Ex p)) (fun _ => eq_refl) n file.
Lemma proj_str items n : ev_doc (afresh fs' (ar_ex x y ar) n None) limit64 (fi (swap x y) items) ([], init_sh g) =
  rres x y (ren_obj (swap x y)) (ev_doc (afresh fs ar n None) limit64 items ([], init_sh g)).
Proof. exact (q_doc x y Hx Hy _ _ limit64 (fun k p => Q n None k p) items ([], init_sh g)). Qed.
Theorem C74_str text o : from_str fs g text = Some (OOk o) -> respects ar (sh_log (snd (parse_obj_str fs g text))) ->
  exists o', from_str fs' g (swap_fields x y text) = Some (OOk o') /\ alike (exchanged x y o) o' /\ obj_eqb (exchanged x y o) o' = true /\
    respects ar (sh_log (snd (parse_obj_str fs' g (swap_fields x y text)))).
Proof.
  intros E Rs. destruct (from_str_doc fs g text o E) as (items & R).
  destruct (C67_str_back fs ar g items text o Coh Des Gg R E Rs) as (o1 & z & Ev & Al).
  pose proof (proj_str items (S (List.length (fs_files fs)))) as P. rewrite Ev in P. cbn [rres] in P.
  destruct (C67_str fs' (ar_ex x y ar) g _ _ _ _ _ (ex_coherent x y ar fs fs' Ex Coh) (ex_describes x y ar fs fs' Hx Hy Des Ex) Gg (fields_doc x y Hx Hy items text R) P)
    as (o' & E' & Al' & _ & Rs'). exists o'.
  assert (A : alike (exchanged x y o) o').
  { apply (exchanged_alike x y) in Al. unfold alike, exchanged in *. congruence. }
  split; [exact E'|]. split; [exact A|]. split; [apply alike_eq; [eapply loaded_any; exact E'|apply alike_sym; exact A]|]. apply ex_respects in Rs'. exact Rs'.
Qed.
Theorem C74_file path full items o : canon fs path = Some full -> ar full = Some (CObj items) ->
  from_file fs g path = Some (OOk o) -> respects ar (sh_log (snd (parse_obj_file fs g path))) ->
  exists o', from_file fs' g path = Some (OOk o') /\ alike (exchanged x y o) o' /\ obj_eqb (exchanged x y o) o' = true /\
    respects ar (sh_log (snd (parse_obj_file fs' g path))).
Proof.
  intros Ef Ea E Rs.
  destruct (C67_file_back fs ar g path full items o Coh Des Gg Ef Ea E Rs) as (o1 & z & Ev & Al).
  pose proof (Q (S (List.length (fs_files fs))) None IObj path ([], init_sh g)) as P. rewrite Ev in P. cbn [rres ren_value] in P.
  destruct (C67_file fs' (ar_ex x y ar) g _ path _ _ (ex_coherent x y ar fs fs' Ex Coh) (ex_describes x y ar fs fs' Hx Hy Des Ex) Gg P)
    as (o' & E' & Al' & _ & Rs'). exists o'.
  assert (A : alike (exchanged x y o) o').
  { apply (exchanged_alike x y) in Al. unfold alike, exchanged in *. congruence. }
  split; [exact E'|]. split; [exact A|]. split; [apply alike_eq; [apply any_good; eapply loaded_wf; right; eauto|apply alike_sym; exact A]|]. apply ex_respects in Rs'. exact Rs'.
Qed.
End Project.
End P.

(** ** Concrete cases *)
Section Ex.
#[local] Instance ascii : Unicode := {| u_alpha := fun _ => false; u_debug := fun c => [c] |}.
Lemma legal_ascii c : In c (lit "uxyzw") -> legal_field [c].
Proof.
  intros H. exists c, []. split; [reflexivity|]. split; [left; cbn in H; repeat destruct H as [<-|H]; try reflexivity; destruct H|]. split; [constructor|].
  intros I. apply mem_str_iff in I. cbn in H. repeat destruct H as [<-|H]; try discriminate I. destruct H.
Qed.
Lemma no_includes_b log : forallb (fun e => match e with EInc _ _ _ => false | _ => true end) log = true -> no_includes log.
Proof. intros H full k v I. rewrite forallb_forall in H. apply H in I. discriminate. Qed.
Definition names_text : str := lit "x: 1 # about x
y: {x: 1._5 y: ""x y""} @x: 3 z: x+y.x-@x".
(** Only names in the code change; not those of globals, nor parts of numbers, strings and comments. *)
Example C74_ex_swap : swap_fields (lit "x") (lit "y") names_text = lit "y: 1 # about x
x: {y: 1._5 x: ""x y""} @x: 3 z: y+x.y-@x".
Proof. reflexivity. Qed.
Example C74_ex : exists o, legal_field (lit "x") /\ legal_field (lit "y") /\ from_str no_fs g0 names_text = Some (OOk o) /\
  no_includes (sh_log (snd (parse_obj_str no_fs g0 names_text))) /\
  match obj_get o (lit "y"), obj_get (exchanged (lit "x") (lit "y") o) (lit "x") with
  | Some (VObj p), Some (VObj q) => map fst (obj_pairs p) = [lit "x"; lit "y"] /\ map fst (obj_pairs q) = [lit "y"; lit "x"]
  | _, _ => False end.
Proof.
  eexists. split; [apply legal_ascii; cbn; auto|]. split; [apply legal_ascii; cbn; auto|]. split; [vm_compute; reflexivity|]. split; [apply no_includes_b; vm_compute; reflexivity|].
  vm_compute. auto.
Qed.
Example C74_no_files_ex : forall p, canon no_fs p = None.
Proof. intros p. unfold canon, fs_entry. destruct (path_parent p); reflexivity. Qed.
(** An exchange is needed, a renaming is not enough: with [x] called [y] this text defines [y] twice. *)
Theorem C74_rename_refuted : exists text, (exists o, from_str no_fs g0 text = Some (OOk o)) /\
  exists e, from_str no_fs g0 (rename_names (fun n => if str_eqb n (lit "x") then lit "y" else n) Code TNothing text) = Some (OErr e).
Proof. exists (lit "x: 1 y: 2"). split; eexists; vm_compute; reflexivity. Qed.
(** A project: x and u are exchanged in all four files but the last, which is included as text. *)
Definition proj' : fsys :=
  mkfs (fs_resolve proj)
    (map (fun e => match fe_read e with
       | inl t => mkfe (fe_canon e) (inl (if str_eqb t (lit "{not over") then t else swap_fields (lit "x") (lit "u") t))
       | inr _ => e end) (fs_files proj)) (fun _ => lit "no such file").
Example C74_ex_project : exists o o', files_exchanged (lit "x") (lit "u") proj_ar proj proj' /\
  canon proj (lit "a") = Some (lit "/a") /\ proj_ar (lit "/a") = Some (CObj in_a) /\
  from_file proj g0 (lit "a") = Some (OOk o) /\ respects proj_ar (sh_log (snd (parse_obj_file proj g0 (lit "a")))) /\
  from_file proj' g0 (lit "a") = Some (OOk o') /\
  map fst (obj_pairs o) = [lit "x"; lit "y"; lit "z"] /\ map fst (obj_pairs o') = [lit "u"; lit "y"; lit "z"] /\
  match obj_get o (lit "x"), obj_get o' (lit "u") with
  | Some (VObj p), Some (VObj q) => map fst (obj_pairs p) = [lit "u"; lit "v"] /\ map fst (obj_pairs q) = [lit "x"; lit "v"]
  | _, _ => False end.
Proof.
  eexists. eexists. split.
  { intros path. split.
    - unfold canon, fs_entry. change (fs_resolve proj') with (fs_resolve proj). destruct (path_parent path); [|reflexivity]. destruct (fs_resolve proj path) as [i|]; [|reflexivity].
      destruct i as [|[|[|[|i]]]]; try reflexivity.
    - intros full c text H Ha (i & fe & He & Hr & Hn). apply proj_paths in H.
      destruct H as [[-> ->]|[[-> ->]|[[-> ->]|[-> ->]]]]; vm_compute in Ha; injection Ha as <-; vm_compute in He; injection He as <- <-; cbn [fe_read] in Hr; injection Hr as <-;
        (eexists; eexists; split; [reflexivity|split; [vm_compute; reflexivity|discriminate]]). }
  split; [reflexivity|]. split; [reflexivity|]. split; [vm_compute; reflexivity|]. split; [apply respects_b; vm_compute; reflexivity|]. split; [vm_compute; reflexivity|].
  vm_compute. auto.
Qed.
End Ex.
Print Assumptions C74_exchanged.
Print Assumptions C74_alone.
Print Assumptions C74_no_files.
Print Assumptions C74_str.
Print Assumptions C74_file.
Print Assumptions C74_rename_refuted.
