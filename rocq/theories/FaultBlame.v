(** * FaultBlame: the parser reports the errors of Spot.v, those of included files among them. *)
From Verif Require Export FaultVal Fuel.
Open Scope N_scope.

Section Blame.
Context `{U : Unicode}.
Variable fs : fsys.
Notation li := (load_file fs (inc_fuel fs)).

(** The stream parser of a text of the given kind. *)
Definition stream_code (L : inc_ty -> str -> shared -> outcome value * shared) (root : inc_ty) (n : nat) : M value :=
  match root with
  | IObj => let* o := parse_obj_stream fs L n in ret (VObj o)
  | IArr => let* a := parse_arr_stream fs L n in ret (VArr a)
  | ITup => let* t := parse_tup_stream fs L n in ret (VTup t)
  | IStr => nofuel
  end.
Lemma root_mb file root e sh text n : wfvals sh -> meets_root fs file root e ([], sh) text ->
  mb e (stream_code li root n) (mkst file text 1 1 [] sh).
Proof.
  intros W (pl & S & M). pose proof (good_init file text sh W) as G. destruct root; cbn [starts] in S.
  - subst pl. specialize (M okf_nil n _ G). cbn beta iota in M. apply mb_bind. revert M. unfold items_code, parse_obj_stream, mb, bind.
    destruct (find_char _) as [[[]|e'| |] s']; auto; cbn [negb].
    destruct (pairs_loop _ _ _ _ _ _ _ _) as [[]]; auto. contradiction.
  - contradiction.
  - subst pl. specialize (M ltac:(split; [constructor|discriminate]) n _ G TAny eq_refl). apply mb_bind. unfold parse_arr_stream.
    apply mb_bind. exact M.
  - subst pl. specialize (M ltac:(constructor) n _ G). apply mb_bind. unfold parse_tup_stream. apply mb_bind. exact M.
Qed.
Lemma upto_stream L L' root n m : (forall ty p sh, fst (L ty p sh) = NoFuel \/ L' ty p sh = L ty p sh) -> (n <= m)%nat ->
  upto (stream_code L root n) (stream_code L' root m).
Proof.
  intros H Le. destruct root; cbn [stream_code]; try apply upto_nofuel; (apply upto_bind; [|intros; apply upto_refl]).
  - apply upto_obj_stream; auto.
  - apply upto_arr_stream; auto.
  - apply upto_tup_stream; auto.
Qed.
(** Reading a file is running the stream parser on its contents. *)
Lemma load_stream k ty path sh i fe text : ty <> IStr -> fs_entry fs path = Some (i, fe) -> fe_read fe = inl text ->
  let sh1 := log_ev (EOpen (fe_canon fe)) sh in
  load_file fs (S k) ty path sh = done_file fs path (let '(o, s) := stream_code (load_file fs k) ty (stream_fuel text) (mkst (Some path) text 1 1 [] sh1) in (o, s_sh s)).
Proof.
  intros N E R sh1. cbn [load_file]. unfold open_file. rewrite E, R. cbv zeta. fold sh1. unfold run_stream, stream_code, bind, ret.
  f_equal. destruct ty; [|contradiction| |]; match goal with |- context [?p (mkst (Some path) text 1 1 [] sh1)] => destruct (p (mkst (Some path) text 1 1 [] sh1)) as [[] ?] end; reflexivity.
Qed.
Lemma load_mbo k ty path sh i fe text e : ty <> IStr -> (k <= inc_fuel fs)%nat -> fs_entry fs path = Some (i, fe) -> fe_read fe = inl text ->
  mb e (stream_code li ty (stream_fuel text)) (mkst (Some path) text 1 1 [] (log_ev (EOpen (fe_canon fe)) sh)) ->
  mbo e (load_file fs k ty path sh).
Proof.
  intros N Le E R H. destruct k as [|k]; [exact I|]. rewrite (load_stream k ty path sh i fe text N E R).
  set (s0 := mkst _ _ _ _ _ _) in *.
  destruct (upto_stream (load_file fs k) li ty (stream_fuel text) (stream_fuel text)
    (fun ty p sh => load_file_mono fs k (inc_fuel fs) ty p sh ltac:(lia)) (le_n _) s0) as [X|X].
  - destruct (stream_code (load_file fs k) ty (stream_fuel text) s0) as [o s]. cbn [fst] in X. subst o. exact I.
  - unfold mb in H. rewrite X in H. destruct (stream_code (load_file fs k) ty (stream_fuel text) s0) as [[] s]; try contradiction; exact H.
Qed.

(** An include that fails. *)
Lemma asks_meets file root sh text ty f x full e : asks fs file root ([], sh) text ty f x -> fresh_file fs file f x full ->
  (wfvals (snd x) -> mbo e (li ty (inc_path file f) (asked fs file full x))) -> meets_root fs file root e ([], sh) text.
Proof.
  intros A (C & Nr & Na) H. destruct A as [r ps d close x P w ex t w' R f x' S Nr' D W He W' E ->|ps d k x P ex t w' R f x' S He W' E ->].
  - eapply spot_sound; [exact S| |].
    + destruct r; cbn [fits]; try congruence; try (eexists _, _; split; [reflexivity|]); unfold solid_head; auto.
    + intros Kp n s G. eapply mb_inc_first; [exact D|exact W|exact He|apply ws_gt_folb; exact W'|exact Kp|exact E|exact G|]. intros m s1 V G1.
      eapply mb_token; [exact G1|reflexivity|]. intros [k'|[]] s2 Ek G2; [discriminate|]. apply mb_ret.
      eapply mb_tail; [exact W'|exact G2|]. intros s3 G3. eapply mb_finish; [exact G3|exact C|right].
      split; [exact Nr|]. split; [exact Na|]. apply H. destruct G3 as (_ & X & _ & K & _). rewrite <- X. apply K.
  - eapply spot_sound; [exact S|exact I|]. intros Kp n s G.
    eapply mb_inc_second; [exact He|apply ws_gt_folb; exact W'|exact Kp|exact E|exact G|]. intros s1 V G1.
    eapply mb_tail; [exact W'|exact G1|]. intros s2 G2. eapply mb_finish; [exact G2|exact C|right].
    split; [exact Nr|]. split; [exact Na|]. apply H. destruct G2 as (_ & X & _ & K & _). rewrite <- X. apply K.
Qed.
Theorem blame_sound file root sh text e : blame fs file root sh text e -> meets_root fs file root e ([], sh) text.
Proof.
  intros B. induction B as [file root sh text k F|file root sh text ty f x full i fe text' e A Fr E R B IH|file root sh text ty f x full i fe msg A Fr E R].
  - apply faulty_sound. exact F.
  - eapply asks_meets; [exact A|exact Fr|]. intros W.
    assert (N : ty <> IStr) by (intros ->; destruct IH as (? & [] & _)).
    eapply load_mbo; [exact N|apply le_n|exact E|exact R|].
    assert (X : log_ev (EOpen (fe_canon fe)) (asked fs file full x) = entering fs file full x).
    { unfold entering, asked, log_ev. cbn. destruct Fr as (C & _). unfold canon in C. rewrite E in C. rewrite C. reflexivity. }
    rewrite X. apply root_mb; [exact W|exact IH].
  - eapply asks_meets; [exact A|exact Fr|]. intros W. unfold inc_fuel. cbn [load_file]. unfold open_file. rewrite E, R. reflexivity.
Qed.
End Blame.
