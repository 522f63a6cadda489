(** * PropHistory: C34 (loading does not depend on the past of the process) and C40 (what a load returns
    is new). *)
From Verif Require Export Format FormatProofs History PropLoad PropNames PropRound.
From Coq Require String.
Import String.StringSyntax.
Open Scope N_scope.

Section History.
Context `{U : Unicode}.

(** The processes there can be: whatever instances were created and whatever was loaded before, with
    success or not, from whatever files, in this or in other threads; and whatever the other threads are going
    to do while this thread goes on. *)
Definition with_others (g : gstate) (acts : list (list other_act)) : gstate :=
  mkg (g_next g) (g_obj g) (g_str g) (g_arr g) (g_tup g) acts (g_taken g).
Inductive process : gstate -> Prop :=
| pr_start : process g0
| pr_create g : process g -> process (bump g)
| pr_other g a : process g -> process (g_act g a)
| pr_threads g acts : process g -> process (with_others g acts)
| pr_load_str fs g text : process g -> process (sh_g (snd (parse_obj_str fs g text)))
| pr_load_file fs g path : process g -> from_file fs g path <> None -> process (sh_g (snd (parse_obj_file fs g path))).

Lemma g0_ok : g_ok g0.
Proof. split; [intros [] ? H; discriminate H|]. split; [intros [] ? ? H; discriminate H|intros ? []]. Qed.
Lemma ok_others g acts : g_ok g -> g_ok (with_others g acts).
Proof.
  intros (A & B & C). split; [|split].
  - intros k i. specialize (A k i). destruct k; exact A.
  - intros k k' i. specialize (B k k' i). destruct k, k'; exact B.
  - intros i H. apply C in H as [H K]. split; [exact H|]. intros k. specialize (K k). destruct k; exact K.
Qed.
Lemma process_ok g : process g -> g_ok g.
Proof.
  intros H. induction H; [apply g0_ok|..].
  - apply ok_bump; auto.
  - apply ok_act; auto.
  - apply ok_others; auto.
  - apply (C37_process_ok fs); auto.
  - apply (C37_process_ok fs); auto.
Qed.

(** ** C34 *)

(** The same outcome: the same error, or Objs that are the same but for a one-to-one renaming of ids:
    equal by ==, with the same text, and with the same instances shared. *)
Definition same_outcome (g1 g2 : gstate) (r1 r2 : option (ores obj)) : Prop :=
  match r1, r2 with
  | Some (OOk o1), Some (OOk o2) =>
      obj_eqb o1 o2 = true /\ write_to_string o1 = write_to_string o2 /\ erase_obj o1 = erase_obj o2 /\
      exists W, one_to_one W /\ corr_obj (g_next g1) (g_next g2) W o1 o2
  | Some (OErr e1), Some (OErr e2) => e1 = e2
  | None, None => True
  | _, _ => False
  end.

Lemma outcome_same fs g1 g2 (r1 r2 : outcome obj * shared) :
  (forall o sh, r1 = (Ok o, sh) -> loaded fs g1 o) -> (forall o sh, r2 = (Ok o, sh) -> loaded fs g2 o) ->
  orel [] (corr_obj (g_next g1) (g_next g2)) (sh_corr (g_next g1) (g_next g2) True) r1 r2 ->
  same_outcome g1 g2 (to_ores (fst r1)) (to_ores (fst r2)).
Proof.
  intros L1 L2 H. unfold orel in H. destruct r1 as [[o1|e1| |] h1], r2 as [[o2|e2| |] h2]; try contradiction; cbn [fst to_ores same_outcome]; auto.
  - destruct H as (W & _ & (_ & _ & _ & _ & O & _) & C).
    pose proof (proj2 (corr_erase_both _ _ W) _ _ C) as E.
    pose proof (loaded_wf _ _ _ (L1 _ _ eq_refl)) as W1. pose proof (loaded_wf _ _ _ (L2 _ _ eq_refl)) as W2.
    assert (Q : obj_eqb o1 o2 = true) by (apply erase_eqb; auto using any_good).
    split; [exact Q|]. split; [rewrite !write_to_string_fmt; f_equal; apply fmt_body_same; auto|]. split; [exact E|]. exists W. auto.
  - f_equal. exact H.
Qed.
Theorem C34_from_str fs g1 g2 text : process g1 -> process g2 ->
  same_outcome g1 g2 (from_str fs g1 text) (from_str fs g2 text).
Proof.
  intros G1 G2. apply process_ok in G1, G2. apply (outcome_same fs).
  - intros o sh E. left. exists text. unfold from_str. rewrite E. reflexivity.
  - intros o sh E. left. exists text. unfold from_str. rewrite E. reflexivity.
  - apply parse_str_alike; auto.
Qed.
Theorem C34_from_file fs g1 g2 path : process g1 -> process g2 ->
  same_outcome g1 g2 (from_file fs g1 path) (from_file fs g2 path).
Proof.
  intros G1 G2. apply process_ok in G1, G2. apply (outcome_same fs).
  - intros o sh E. right. exists path. unfold from_file. rewrite E. reflexivity.
  - intros o sh E. right. exists path. unfold from_file. rewrite E. reflexivity.
  - apply parse_file_alike; auto.
Qed.

(** A thousand Objs created before, or a load that used a keyword, make no difference. *)
Example C34_ex : exists g text o1 o2,
  process g /\ g <> g0 /\ from_str no_fs g0 text = Some (OOk o1) /\ from_str no_fs g text = Some (OOk o2) /\
  obj_id o1 <> obj_id o2.
Proof.
  exists (sh_g (snd (parse_obj_str no_fs g0 (lit "k: Str a: [1 2]")))), (lit "x: Arr y: [x x]"). eexists _, _.
  split; [apply pr_load_str; constructor|]. split; [vm_compute; discriminate|].
  split; [vm_compute; reflexivity|]. split; [vm_compute; reflexivity|]. vm_compute. discriminate.
Qed.

(** ** C40 *)

Lemma corr_part b1 b2 W u v : part u v -> forall w, corr b1 b2 W v w -> exists x, corr b1 b2 W u x.
Proof.
  intros P. induction P as [|id t vs y I P IH|id ts vs y I P IH|id ps par f y I P IH|id ps p P IH]; intros w C; eauto.
  - inversion C; subst. clear - I H6 IH. induction H6; destruct I; subst; eauto.
  - inversion C; subst. clear - I H6 IH. induction H6; destruct I; subst; eauto.
  - inversion C as [| | | | | | |o q CO]; subst. assert (F : exists qs, Forall2 (fun x y => fst x = fst y /\ corr b1 b2 W (snd x) (snd y)) ps qs) by (inversion CO; subst; eauto).
    destruct F as [qs F]. clear - I F IH. induction F as [|a b ps qs [_ H] F IHF]; destruct I; subst; eauto.
  - inversion C as [| | | | | | |o q CO]; subst. inversion CO; subst. apply (IH (VObj q0)). constructor. auto.
Qed.
Lemma new_ids b1 b2 W g1 g2 v w : ids_ok b1 b2 True W g1 g2 -> corr b1 b2 W v w ->
  (forall a, part (VArr a) v -> b1 <= arr_id a < g_next g1 /\ ~ In (arr_id a) (g_taken g1)) /\
  (forall t, part (VTup t) v -> b1 <= tup_id t < g_next g1 /\ ~ In (tup_id t) (g_taken g1)) /\
  (forall o, part (VObj o) v -> obj_id o < g_next g1 /\ fresh_or_sent b1 g1 (obj_id o)).
Proof.
  intros (_ & _ & _ & B) C. split; [|split].
  - intros a P. destruct (corr_part _ _ _ _ _ P _ C) as [x H]. inversion H; subst.
    match goal with H : In _ W |- _ => apply B in H as [[H [_ Nt]] _] end. repeat split; auto.
  - intros t P. destruct (corr_part _ _ _ _ _ P _ C) as [x H]. inversion H; subst.
    match goal with H : In _ W |- _ => apply B in H as [[H [_ Nt]] _] end. repeat split; auto.
  - intros o P. destruct (corr_part _ _ _ _ _ P _ C) as [x H]. inversion H; subst.
    match goal with H : corr_obj _ _ _ _ _ |- _ => apply corr_obj_id in H; apply B in H as [H _]; exact H end.
Qed.
Definition loads_to (fs : fsys) (g : gstate) (o : obj) (g' : gstate) : Prop :=
  (exists text sh, parse_obj_str fs g text = (Ok o, sh) /\ g' = sh_g sh) \/
  (exists path sh, parse_obj_file fs g path = (Ok o, sh) /\ g' = sh_g sh).
Lemma loads_later fs g o g' : process g -> loads_to fs g o g' -> g_later g g'.
Proof.
  intros _ [(text & sh & E & ->)|(path & sh & E & ->)].
  - pose proof (load_str_spec fs (g_later g) (later_bump g) (later_sent g) False g text (g_later_refl g)) as S.
    rewrite E in S. apply S.
  - destruct (fs_entry fs path) as [[i e]|] eqn:Ep.
    + pose proof (load_file_spec fs (g_later g) (later_bump g) (later_sent g) True g path i e (g_later_refl g) Ep (fun _ => I)) as S.
      rewrite E in S. destruct S as [_ [C S]]. apply S.
    + unfold parse_obj_file, open_file in E. rewrite Ep in E. discriminate.
Qed.
(** [new g g' i]: instance [i] was created between the states [g] and [g'] of the process, and not by another
    thread for itself. *)
Definition new (g g' : gstate) (i : N) : Prop := g_next g <= i < g_next g' /\ ~ In i (g_taken g').
(** Every Arr, Tup and Obj that a load returns was created by it; the only other instances in the result are the
    process's keyword Objs. *)
Theorem C40_result_is_new fs g o g' : process g -> loads_to fs g o g' ->
  (forall a, part (VArr a) (VObj o) -> new g g' (arr_id a)) /\
  (forall t, part (VTup t) (VObj o) -> new g g' (tup_id t)) /\
  (forall p, part (VObj p) (VObj o) -> new g g' (obj_id p) \/ exists k, g_sent g k = Some (obj_id p)).
Proof.
  intros P L. pose proof (loads_later _ _ _ _ P L) as [_ La]. apply process_ok in P.
  assert (K : exists W, ids_ok (g_next g) (g_next g) True W g' g' /\ corr (g_next g) (g_next g) W (VObj o) (VObj o)).
  { destruct L as [(text & sh & E & ->)|(path & sh & E & ->)].
    - pose proof (parse_str_alike fs g g text P P) as H. rewrite E in H. destruct H as (W & _ & (_ & _ & O) & C).
      exists W. split; auto. constructor. auto.
    - pose proof (parse_file_alike fs g g path P P) as H. rewrite E in H. destruct H as (W & _ & (_ & _ & O) & C).
      exists W. split; auto. constructor. auto. }
  destruct K as (W & O & C). destruct (new_ids _ _ _ _ _ _ _ O C) as (A & T & B). split; [auto|]. split; [auto|].
  intros p Hp. apply B in Hp as [Lt [[F|[k F]] Nt]]; [left; split; auto|].
  specialize (La k). destruct (g_sent g k) eqn:E; [right; exists k; congruence|]. rewrite F in La. left. split; [lia|auto].
Qed.
(** So two loads, one after the other ended, share no instance but keyword Objs. *)
Theorem C40_loads_share_nothing fs1 fs2 g1 o1 g1' g2 o2 g2' :
  process g1 -> loads_to fs1 g1 o1 g1' -> process g2 -> g_later g1' g2 -> loads_to fs2 g2 o2 g2' ->
  (forall a b, part (VArr a) (VObj o1) -> part (VArr b) (VObj o2) -> arr_ptr_eq a b = false) /\
  (forall a b, part (VTup a) (VObj o1) -> part (VTup b) (VObj o2) -> tup_ptr_eq a b = false) /\
  (forall a b, part (VObj a) (VObj o1) -> part (VObj b) (VObj o2) -> obj_ptr_eq a b = true ->
     exists k, g_sent g2 k = Some (obj_id b)).
Proof.
  intros P1 L1 P2 [La _] L2. destruct (C40_result_is_new _ _ _ _ P1 L1) as (A1 & T1 & O1).
  destruct (C40_result_is_new _ _ _ _ P2 L2) as (A2 & T2 & O2). unfold new in *. split; [|split].
  - intros a b Ha Hb. apply A1 in Ha. apply A2 in Hb. apply N.eqb_neq. lia.
  - intros a b Ha Hb. apply T1 in Ha. apply T2 in Hb. apply N.eqb_neq. lia.
  - intros a b Ha Hb E. apply N.eqb_eq in E. apply O2 in Hb as [Hb|Hb]; [|exact Hb]. exfalso.
    apply O1 in Ha as [Ha|[k Ha]]; [lia|].
    apply (proj1 (process_ok _ P1)) in Ha. pose proof (loads_later _ _ _ _ P1 L1) as [Lb _]. lia.
Qed.

(** ** C48: loads in several threads *)

(** Whatever other threads do meanwhile (creating values, loading), a load has the outcome it has alone. *)
Theorem C48_interference_invisible fs g acts : process g ->
  (forall text, same_outcome (with_others g acts) (with_others g [])
                  (from_str fs (with_others g acts) text) (from_str fs (with_others g []) text)) /\
  (forall path, same_outcome (with_others g acts) (with_others g [])
                  (from_file fs (with_others g acts) path) (from_file fs (with_others g []) path)).
Proof.
  intros P. split; intros; [apply C34_from_str|apply C34_from_file]; apply pr_threads; auto.
Qed.
(** A load does to the shared state only what any thread may do (so that it is an interference itself):
    it draws ids and creates missing keyword Objs, each once. *)
Theorem C48_load_is_interference fs g o g' : process g -> loads_to fs g o g' -> g_later g g' /\ g_ok g'.
Proof.
  intros P L. split; [eapply loads_later; eauto|]. pose proof (process_ok _ P) as G.
  destruct L as [(text & sh & E & ->)|(path & sh & E & ->)].
  - pose proof (proj1 (proj2 (C37_process_ok fs g G)) text) as X. rewrite E in X. exact X.
  - pose proof (proj2 (proj2 (C37_process_ok fs g G)) path) as X. rewrite E in X. apply X.
    unfold from_file. rewrite E. discriminate.
Qed.
(** [elsewhere g g' v]: a value of another thread: each Arr, Tup and Obj in it existed before the state [g], was created
    by another thread for itself between [g] and [g'], was created after [g'], or is a keyword Obj. *)
Definition not_ours (g g' : gstate) (i : N) : Prop := i < g_next g \/ In i (g_taken g') \/ g_next g' <= i.
Definition elsewhere (g g' : gstate) (v : value) : Prop :=
  (forall a, part (VArr a) v -> not_ours g g' (arr_id a)) /\
  (forall t, part (VTup t) v -> not_ours g g' (tup_id t)) /\
  (forall p, part (VObj p) v -> not_ours g g' (obj_id p) \/ exists k, g_sent g' k = Some (obj_id p)).
(** What a load returns shares no instance with the values of other threads, also with those made while it ran (by
    another load, say), but for keyword Objs. *)
Theorem C48_shares_nothing fs g o g' v : process g -> loads_to fs g o g' -> elsewhere g g' v ->
  (forall a b, part (VArr a) (VObj o) -> part (VArr b) v -> arr_ptr_eq a b = false) /\
  (forall a b, part (VTup a) (VObj o) -> part (VTup b) v -> tup_ptr_eq a b = false) /\
  (forall a b, part (VObj a) (VObj o) -> part (VObj b) v -> obj_ptr_eq a b = true ->
     exists k, g_sent g' k = Some (obj_id a)).
Proof.
  intros P L (VA & VT & VO). destruct (C40_result_is_new _ _ _ _ P L) as (A & T & O).
  pose proof (loads_later _ _ _ _ P L) as [_ La].
  assert (X : forall i, new g g' i -> not_ours g g' i -> False) by (intros i [R N] [H|[H|H]]; [lia|auto|lia]).
  split; [|split].
  - intros a b Ha Hb. apply N.eqb_neq. intros E. apply A in Ha. apply VA in Hb. rewrite E in Ha. eauto.
  - intros a b Ha Hb. apply N.eqb_neq. intros E. apply T in Ha. apply VT in Hb. rewrite E in Ha. eauto.
  - intros a b Ha Hb E. apply N.eqb_eq in E. apply VO in Hb as [Hb|[k Hb]]; [|exists k; congruence].
    apply O in Ha as [Ha|[k Ha]]; [rewrite E in Ha; exfalso; eauto|].
    exists k. specialize (La k). rewrite Ha in La. exact La.
Qed.
(** Another thread creates two values and the keyword Obj Str while this one loads: ids in the result skip those
    taken, and the field x is the other thread's Str. *)
Example C48_ex : exists o g', 
  let g := with_others g0 [[ODraw; OKeyword IStr]; [ODraw]] in
  process g /\ loads_to no_fs g o g' /\ g_taken g' <> [] /\ from_str no_fs (with_others g0 []) (lit "x: Str a: [1] b: [2]") <> Some (OOk o) /\
  (exists k a, g_sent g' k = Some (obj_id a) /\ part (VObj a) (VObj o)) /\
  elsewhere g g' (VArr (MkArr (hd 0 (g_taken g')) TInt [VInt 7])).
Proof.
  eexists _, _. cbv zeta. split; [apply pr_threads; constructor|].
  split; [left; exists (lit "x: Str a: [1] b: [2]"); eexists; split; [vm_compute; reflexivity|vm_compute; reflexivity]|].
  split; [vm_compute; discriminate|]. split; [vm_compute; discriminate|]. split.
  - exists IStr. eexists. split; [|eapply part_field; [left; reflexivity|apply part_self]]. reflexivity.
  - split; [|split].
    + intros a P. inversion P; subst; [right; left; left; reflexivity|].
      match goal with H : In _ _ |- _ => destruct H as [<-|[]] end. match goal with H : part _ (VInt _) |- _ => inversion H end.
    + intros a P. inversion P; subst.
      match goal with H : In _ _ |- _ => destruct H as [<-|[]] end. match goal with H : part _ (VInt _) |- _ => inversion H end.
    + intros a P. inversion P; subst.
      match goal with H : In _ _ |- _ => destruct H as [<-|[]] end. match goal with H : part _ (VInt _) |- _ => inversion H end.
Qed.

(** The exception is real: both Objs have the field x = the keyword Obj Str. *)
Example C40_ex : exists o1 g1 o2 g2, process g1 /\ loads_to no_fs g0 o1 g1 /\ loads_to no_fs g1 o2 g2 /\
  (exists a b, part (VObj a) (VObj o1) /\ part (VObj b) (VObj o2) /\ obj_ptr_eq a b = true) /\
  (exists a, part (VArr a) (VObj o2)).
Proof.
  eexists _, _, _, _. split; [apply (pr_load_str no_fs g0 (lit "x: Str")); constructor|].
  split; [left; exists (lit "x: Str"); eexists; split; [vm_compute; reflexivity|vm_compute; reflexivity]|].
  split; [left; exists (lit "y: [1] x: Str"); eexists; split; [vm_compute; reflexivity|vm_compute; reflexivity]|].
  split.
  - eexists _, _. split; [eapply part_field; [left; reflexivity|apply part_self]|].
    split; [eapply part_field; [right; left; reflexivity|apply part_self]|]. reflexivity.
  - eexists. eapply part_field; [left; reflexivity|apply part_self].
Qed.
End History.
Print Assumptions C40_loads_share_nothing.
Print Assumptions C34_from_str.
Print Assumptions C34_from_file.
Print Assumptions C40_result_is_new.
Print Assumptions C48_interference_invisible.
Print Assumptions C48_load_is_interference.
Print Assumptions C48_shares_nothing.
