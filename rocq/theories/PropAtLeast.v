(** * PropAtLeast: C79, a load takes at least as many ids as its result has different containers
    (lib.rs gen_id; arr.rs, tup.rs, obj.rs: one id for each instance). *)
From Verif Require Import PropShare PropHistory PropIds.
From Coq Require String.
Import String.StringSyntax.
Open Scope N_scope.

(** ** Specification *)
Definition is_container (v : value) : Prop := match v with VArr _ | VTup _ | VObj _ => True | _ => False end.

Section S.
Context `{U : Unicode}.
Definition one_id (v : value) : N := match v with VArr a => arr_id a | VTup t => tup_id t | VObj o => obj_id o | _ => 0 end.
Definition sentinels (g : gstate) : list N :=
  flat_map (fun k => match g_sent g k with Some i => [i] | None => [] end) [IObj; IStr; IArr; ITup].
Lemma sentinels_4 g : (length (sentinels g) <= 4)%nat.
Proof. unfold sentinels. cbn [flat_map]. rewrite !app_length. destruct (g_sent g IObj), (g_sent g IStr), (g_sent g IArr), (g_sent g ITup); cbn; lia. Qed.
Lemma in_sentinels g k i : g_sent g k = Some i -> In i (sentinels g).
Proof. intros E. unfold sentinels. apply in_flat_map. exists k. split; [destruct k; cbn; tauto|]. rewrite E. left. reflexivity. Qed.

(** What the other threads draw during a load are ids of that time, each once. *)
Definition track (g0 g : gstate) : Prop := g_next g0 <= g_next g /\
  exists l, g_taken g = l ++ g_taken g0 /\ NoDup l /\ Forall (fun i => g_next g0 <= i < g_next g) l.
Lemma track_refl g : track g g.
Proof. split; [lia|]. exists []. repeat constructor. Qed.
Lemma track_same g0 g g' : g_next g <= g_next g' -> g_taken g' = g_taken g -> track g0 g -> track g0 g'.
Proof.
  intros L E (H & l & T & Nd & F). split; [lia|]. exists l. rewrite E. split; [exact T|]. split; [exact Nd|].
  eapply Forall_impl; [|exact F]. cbv beta. lia.
Qed.
Lemma track_act g0 g a : track g0 g -> track g0 (g_act g a).
Proof.
  intros K. destruct a as [|k]; cbn [g_act].
  - destruct K as (H & l & T & Nd & F). split; [cbn; lia|]. exists (g_next g :: l). cbn [g_take g_draw g_taken g_next app]. rewrite T.
    split; [reflexivity|]. split.
    + constructor; [|exact Nd]. intros I. rewrite Forall_forall in F. apply F in I. lia.
    + constructor; [lia|]. eapply Forall_impl; [|exact F]. cbv beta. lia.
  - unfold g_keyword. destruct (g_sent g k); [exact K|]. apply (track_same g0 g); [rewrite next_set, next_draw; lia|rewrite taken_set; reflexivity|exact K].
Qed.
Lemma track_interfere g0 g : track g0 g -> track g0 (interfere g).
Proof.
  unfold interfere. destruct (g_others g) as [|b bs]; [auto|]. intros K.
  assert (K1 : track g0 (mkg (g_next g) (g_obj g) (g_str g) (g_arr g) (g_tup g) bs (g_taken g))) by (apply (track_same g0 g); [cbn; lia|reflexivity|exact K]).
  revert K1. generalize (mkg (g_next g) (g_obj g) (g_str g) (g_arr g) (g_tup g) bs (g_taken g)). induction b as [|a b IH]; intros g1 K1; [exact K1|].
  cbn [fold_left]. apply IH, track_act, K1.
Qed.
Lemma track_bump g0 g : track g0 g -> track g0 (bump g).
Proof. intros K. apply track_interfere, (track_same g0 g); [rewrite next_draw; lia|reflexivity|exact K]. Qed.
Lemma track_sent g0 g k : track g0 g -> g_sent g k = None -> track g0 (g_new_sent g k).
Proof. intros K _. apply track_interfere, (track_same g0 g); [rewrite next_set, next_draw; lia|rewrite taken_set; reflexivity|exact K]. Qed.
Lemma loads_track fs g o g' : loads_to fs g o g' -> track g g'.
Proof.
  intros [(text & sh & E & ->)|(path & sh & E & ->)].
  - pose proof (load_str_spec fs (track g) (track_bump g) (track_sent g) False g text (track_refl g)) as S.
    rewrite E in S. apply S.
  - destruct (fs_entry fs path) as [[i e]|] eqn:Ep.
    + pose proof (load_file_spec fs (track g) (track_bump g) (track_sent g) True g path i e (track_refl g) Ep (fun _ => I)) as S.
      rewrite E in S. destruct S as [_ [C S]]. apply S.
    + unfold parse_obj_file, open_file in E. rewrite Ep in E. discriminate.
Qed.

(** Whatever different Arrs, Tups and Objs there are in a loaded Obj (at any depth): the load drew at least one id for
    each, besides those that other threads took, but for the keyword Objs (at most four) that there were before. *)
Theorem C79_at_least fs g o g' (l : list value) : process g -> loads_to fs g o g' ->
  NoDup l -> Forall (fun v => part v (VObj o) /\ is_container v) l ->
  (Z.of_N (g_next g) + Z.of_nat (length l) + taken_by_others g g' <= Z.of_N (g_next g') + 4)%Z.
Proof.
  intros P L Nd F. destruct (C40_result_is_new fs g o g' P L) as (A & T & O). destruct (C60_kinds_apart fs g o g' P L) as (AT & AO & TO).
  set (fresh := map (fun i => g_next g + N.of_nat i) (seq 0 (N.to_nat (g_next g' - g_next g)))).
  assert (In_fresh : forall i, g_next g <= i < g_next g' -> In i fresh).
  { intros i Hi. unfold fresh. apply in_map_iff. exists (N.to_nat (i - g_next g)). split; [lia|]. apply in_seq. lia. }
  assert (I : forall i, In i (map one_id l) -> new g g' i \/ exists k, g_sent g k = Some i).
  { intros i Hi. apply in_map_iff in Hi as (v & <- & Hv). rewrite Forall_forall in F. destruct (F v Hv) as [Pv Cv].
    destruct v; try contradiction; cbn [one_id]; [left; apply (A _ Pv)|left; apply (T _ Pv)|apply (O _ Pv)]. }
  assert (Nd' : NoDup (map one_id l)).
  { clear I. induction Nd as [|v l Nv Nd IH]; [constructor|]. inversion_clear F as [|? ? [Pv Cv] Fl]. cbn [map]. constructor; [|apply IH, Fl].
    intros Hi. apply in_map_iff in Hi as (w & E & Hw). rewrite Forall_forall in Fl. destruct (Fl w Hw) as [Pw Cw]. apply Nv.
    enough (v = w) by (subst; exact Hw).
    destruct v, w; try contradiction; cbn [one_id] in E;
      try (exfalso; first [eapply AT; [| |exact E]; eassumption|eapply AT; [| |symmetry; exact E]; eassumption
        |eapply AO; [| |exact E]; eassumption|eapply AO; [| |symmetry; exact E]; eassumption
        |eapply TO; [| |exact E]; eassumption|eapply TO; [| |symmetry; exact E]; eassumption]);
      (eapply C60_same_instance; [exact P|exact L|exact Pv|exact Pw|apply N.eqb_eq; symmetry; exact E]). }
  destruct (loads_track fs g o g' L) as (Le & tk & Tk & Ndt & Ft). pose proof (process_ok g P) as G.
  assert (Nd2 : NoDup (map one_id l ++ tk)).
  { clear -Nd' Ndt I Tk Ft G. induction (map one_id l) as [|i m IH]; [exact Ndt|]. inversion_clear Nd' as [|? ? Ni Nm]. cbn [app]. constructor.
    - intros H. apply in_app_or in H as [H|H]; [contradiction|]. destruct (I i (or_introl eq_refl)) as [[_ H']|[k H']].
      + apply H'. rewrite Tk. apply in_or_app. left. exact H.
      + apply (proj1 G) in H'. rewrite Forall_forall in Ft. apply Ft in H. lia.
    - apply IH; [|exact Nm]. intros j Hj. apply I. right. exact Hj. }
  assert (I2 : incl (map one_id l ++ tk) (fresh ++ sentinels g)).
  { intros i Hi. apply in_or_app. apply in_app_or in Hi as [Hi|Hi].
    - destruct (I i Hi) as [[H _]|[k H]]; [left; apply In_fresh, H|right; eapply in_sentinels, H].
    - left. apply In_fresh. rewrite Forall_forall in Ft. apply Ft, Hi. }
  pose proof (NoDup_incl_length Nd2 I2) as B. rewrite !app_length, map_length in B. pose proof (sentinels_4 g).
  unfold fresh in B. rewrite map_length, seq_length in B. unfold taken_by_others. rewrite Tk, app_length. lia.
Qed.
End S.

(** ** A concrete case: five containers. *)
Section Ex.
#[local] Instance ascii : Unicode := {| u_alpha := fun _ => false; u_debug := fun c => [c] |}.
Lemma str_loads_to g text o : from_str no_fs g text = Some (OOk o) -> loads_to no_fs g o (after_str no_fs g text).
Proof.
  intros L. left. unfold from_str in L. unfold after_str. destruct (parse_obj_str no_fs g text) as [[x|e| |] sh] eqn:E; try discriminate L.
  injection L as ->. eauto.
Qed.
Definition ex_a : value := VArr (MkArr 0 TInt [VInt 1]).
Definition ex_2 : value := VArr (MkArr 1 TInt [VInt 2]).
Definition ex_b : value := VTup (MkTup 2 [TArr TInt; TArr TInt; TArr TInt] [ex_a; ex_a; ex_2]).
Definition ex_c : value := VObj (MkObj 3 [] None).
Definition ex_o : obj := MkObj 4 [(lit "a", ex_a); (lit "b", ex_b); (lit "c", ex_c)] None.
Example C79_at_least_ex : let t := lit "a: [1] b: (a a [2]) c: {}" in let l := [VObj ex_o; ex_a; ex_b; ex_2; ex_c] in
  loads_to no_fs g0 ex_o (after_str no_fs g0 t) /\ g_next (after_str no_fs g0 t) = 5 /\
  NoDup l /\ Forall (fun v => part v (VObj ex_o) /\ is_container v) l.
Proof.
  cbv zeta. split; [apply str_loads_to; vm_compute; reflexivity|]. split; [vm_compute; reflexivity|]. split.
  - repeat constructor; cbn; intuition discriminate.
  - assert (A : forall f v, In (f, v) (obj_pairs ex_o) -> part v (VObj ex_o)) by (intros f v I; eapply part_field; [exact I|constructor]).
    repeat (apply Forall_cons; [split; [|exact I]|]); [constructor|eapply A; left; reflexivity|eapply A; right; left; reflexivity| |eapply A; right; right; left; reflexivity|constructor].
    eapply part_field; [right; left; reflexivity|]. eapply part_tup; [right; right; left; reflexivity|constructor].
Qed.
End Ex.
Print Assumptions C79_at_least.
