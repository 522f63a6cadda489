(** * PropIds: how many ids a load takes (C79). *)
From Verif Require Import IdCount PropWork PropHistory.
From Coq Require String.
Import String.StringSyntax.
Open Scope N_scope.

Section S.
Context `{U : Unicode}.
(** ** Specification *)
(** The state of the process after a load, whether it succeeds or fails. *)
Definition after_str (fs : fsys) (g : gstate) (text : str) : gstate := sh_g (snd (parse_obj_str fs g text)).
Definition after_file (fs : fsys) (g : gstate) (path : str) : gstate := sh_g (snd (parse_obj_file fs g path)).
(** What a load may take: by the characters of the text and of the files that are opened. *)
Definition price_str (fs : fsys) (g : gstate) (text : str) : N :=
  5 * (N.of_nat (length text) + chars_all fs (reads_str fs g text)) + 4 * N.of_nat (length (reads_str fs g text)) + 3.
Definition price_file (fs : fsys) (g : gstate) (path : str) : N :=
  5 * chars_all fs (reads_file fs g path) + 4 * N.of_nat (length (reads_file fs g path)) + 1.
(** The ids that other threads took between two states, and the number of keyword Objs (Obj, Str, Arr, Tup) created. *)
Definition taken_by_others (g g' : gstate) : Z := Z.of_nat (length (g_taken g')) - Z.of_nat (length (g_taken g)).
Definition new_keywords (g g' : gstate) : Z := made_keywords g' - made_keywords g.
(** The histories of a process, as [process] in PropHistory.v, with what this thread paid for: 1 for a container that the
    program makes itself, and the price of every load. *)
Inductive paid : gstate -> N -> Prop :=
| pa_start : paid g0 0
| pa_create g n : paid g n -> paid (bump g) (n + 1)
| pa_other g a n : paid g n -> paid (g_act g a) n
| pa_threads g acts n : paid g n -> paid (with_others g acts) n
| pa_load_str fs g text n : paid g n -> paid (after_str fs g text) (n + price_str fs g text)
| pa_load_file fs g path n : paid g n -> from_file fs g path <> None -> paid (after_file fs g path) (n + price_file fs g path).
Theorem paid_process g : process g <-> exists n, paid g n.
Proof.
  split.
  - induction 1 as [|g _ [n P]|g a _ [n P]|g acts _ [n P]|fs g text _ [n P]|fs g path _ [n P] L]; eexists.
    + apply pa_start.
    + apply pa_create. exact P.
    + apply pa_other. exact P.
    + apply pa_threads. exact P.
    + apply pa_load_str. exact P.
    + apply pa_load_file; eassumption.
  - intros [n P]. induction P; [apply pr_start|apply pr_create|apply pr_other|apply pr_threads|apply pr_load_str|apply pr_load_file]; assumption.
Qed.

(** ** Theorems *)
Lemma keywords_4 g : (0 <= made_keywords g <= 4)%Z.
Proof. unfold made_keywords, kw1. destruct (g_obj g), (g_str g), (g_arr g), (g_tup g); lia. Qed.
Lemma own_str fs g text : (own (after_str fs g text) <= own g + Z.of_N (price_str fs g text))%Z.
Proof.
  pose proof (str_ids fs g text) as W. pose proof (C58_str fs g text) as S. pose proof (proj1 (C58_meter_is_loading fs g) text) as E.
  unfold after_str. rewrite <- E. unfold wid, price_str, steps_str in *. destruct (metered_str fs g text) as [[o sh] u]. cbn [fst snd init_sh sh_g] in *. lia.
Qed.
Lemma own_file fs g path : (own (after_file fs g path) <= own g + Z.of_N (price_file fs g path))%Z.
Proof.
  pose proof (file_ids fs g path) as W. pose proof (C58_file fs g path) as S. pose proof (proj2 (C58_meter_is_loading fs g) path) as E.
  unfold after_file. rewrite <- E. unfold wid, price_file, steps_file in *. destruct (metered_file fs g path) as [[o sh] u]. cbn [fst snd init_sh sh_g] in *. lia.
Qed.
(** A load takes at most linearly many ids, in the characters that are read: whether it succeeds or fails, and whatever
    other threads do meanwhile. *)
Theorem C79_str fs g text : let g' := after_str fs g text in
  (Z.of_N (g_next g') <= Z.of_N (g_next g) + Z.of_N (price_str fs g text) + taken_by_others g g' + new_keywords g g')%Z.
Proof. pose proof (own_str fs g text). unfold own, taken_by_others, new_keywords in *. cbv zeta. lia. Qed.
Theorem C79_file fs g path : let g' := after_file fs g path in
  (Z.of_N (g_next g') <= Z.of_N (g_next g) + Z.of_N (price_file fs g path) + taken_by_others g g' + new_keywords g g')%Z.
Proof. pose proof (own_file fs g path). unfold own, taken_by_others, new_keywords in *. cbv zeta. lia. Qed.
(** Every file is read once, so the text and the disk bound it. *)
Theorem C79_str_disk fs g text : let g' := after_str fs g text in
  (Z.of_N (g_next g') <= Z.of_N (g_next g) + Z.of_N (5 * (N.of_nat (length text) + disk_chars fs) + 4 * N.of_nat (length (fs_files fs)) + 3)
     + taken_by_others g g' + new_keywords g g')%Z.
Proof.
  cbv zeta. pose proof (str_ids fs g text) as W. pose proof (C58_str_disk fs g text) as S. pose proof (proj1 (C58_meter_is_loading fs g) text) as E.
  unfold after_str. rewrite <- E. unfold wid, steps_str, own, taken_by_others, new_keywords in *. destruct (metered_str fs g text) as [[o sh] u]. cbn [fst snd init_sh sh_g] in *. lia.
Qed.
Theorem C79_keywords g g' : (new_keywords g g' <= 4)%Z.
Proof. unfold new_keywords. pose proof (keywords_4 g). pose proof (keywords_4 g'). lia. Qed.
(** Over the whole history of a process: *)
Theorem C79_process g n : paid g n -> g_next g <= n + N.of_nat (length (g_taken g)) + 4.
Proof.
  intros P. assert (O : (own g <= Z.of_N n)%Z).
  { induction P.
    - unfold own. cbn. lia.
    - rewrite IdCount.own_bump. lia.
    - rewrite IdCount.own_act. exact IHP.
    - exact IHP.
    - pose proof (own_str fs g text). lia.
    - pose proof (own_file fs g path). lia. }
  pose proof (keywords_4 g). unfold own in O. lia.
Qed.
(** So the 64-bit counter of the code does not wrap around, and is the counter of the model, as long as the process has
    not made 2^64 containers by itself, read 2^60 characters or opened 2^60 files: *)
Theorem C79_no_wrap g n : paid g n -> n + N.of_nat (length (g_taken g)) + 4 <= 2 ^ 64 -> forall i, i < g_next g -> i mod 2 ^ 64 = i.
Proof. intros P B i I. apply N.mod_small. pose proof (C79_process g n P). lia. Qed.
(** In particular every Arr, Tup and Obj in loaded data has an id below 2^64, its own (C40, C60) until then. *)
Theorem C79_data fs g text o n : paid g n -> from_str fs g text = Some (OOk o) ->
  n + price_str fs g text + N.of_nat (length (g_taken (after_str fs g text))) + 4 <= 2 ^ 64 ->
  (forall a, part (VArr a) (VObj o) -> arr_id a < 2 ^ 64) /\ (forall t, part (VTup t) (VObj o) -> tup_id t < 2 ^ 64) /\
  (forall p, part (VObj p) (VObj o) -> obj_id p < 2 ^ 64).
Proof.
  intros P L B. pose proof (pa_load_str fs g text n P) as P'. apply C79_process in P'.
  assert (Pr : process g) by (apply paid_process; eauto).
  assert (Lt : loads_to fs g o (after_str fs g text)) by (left; unfold from_str in L; unfold after_str; destruct (parse_obj_str fs g text) as [[x|e| |] sh] eqn:E; try discriminate L; injection L as ->; eauto).
  destruct (C40_result_is_new _ _ _ _ Pr Lt) as (A & T & O). pose proof (loads_later _ _ _ _ Pr Lt) as La.
  split; [|split].
  - intros a H. destruct (A a H) as [[_ H'] _]. lia.
  - intros t H. destruct (T t H) as [[_ H'] _]. lia.
  - intros p H. destruct (O p H) as [[[_ H'] _]|[k K]]; [lia|]. pose proof (proj1 (process_ok g Pr) k _ K). destruct La as [La _]. lia.
Qed.
End S.

(** ** Concrete cases *)
Section Ex.
#[local] Instance ascii : Unicode := {| u_alpha := fun _ => false; u_debug := fun c => [c] |}.
(** Six literals (with the text itself) take six ids; a load that fails has taken some too; the other threads' two and the
    keyword Obj are told apart. *)
Example C79_ex : let g' := after_str no_fs (with_others g0 [[ODraw]; []; [ODraw; OKeyword ITup]]) (lit "a: [[] []] b: {c: (1)} x: Str") in
  g_next g' = 10 /\ taken_by_others g0 g' = 2%Z /\ new_keywords g0 g' = 2%Z /\ price_str no_fs g0 (lit "a: [[] []] b: {c: (1)} x: Str") = 148.
Proof. vm_compute. repeat split; reflexivity. Qed.
Example C79_ex_fails : (exists e, from_str no_fs g0 (lit "a: [[] []] b: {c: (1)} d: a.7") = Some (OErr e)) /\
  g_next (after_str no_fs g0 (lit "a: [[] []] b: {c: (1)} d: a.7")) = 5.
Proof. split; [eexists; vm_compute; reflexivity|vm_compute; reflexivity]. Qed.
Example C79_ex_paid : exists n, paid (after_str no_fs (bump (after_str no_fs g0 (lit "a: [1]"))) (lit "a: [2]")) n /\ n <= 100 /\
  g_next (after_str no_fs (bump (after_str no_fs g0 (lit "a: [1]"))) (lit "a: [2]")) = 5.
Proof.
  eexists. split; [apply pa_load_str, pa_create, pa_load_str, pa_start|]. split; [vm_compute; discriminate|vm_compute; reflexivity].
Qed.
End Ex.
Print Assumptions C79_str.
Print Assumptions C79_file.
Print Assumptions C79_str_disk.
Print Assumptions C79_process.
Print Assumptions C79_no_wrap.
Print Assumptions C79_data.
