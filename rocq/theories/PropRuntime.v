(** * PropRuntime: C13 (ids under every schedule) and C38 (reference counts in every history). *)
From Verif Require Import Runtime.
From Coq Require Import Permutation Lia List.
Import ListNotations.
Open Scope N_scope.

(** ** C13 *)

(** The first [n] ids handed out, newest first. *)
Fixpoint ids_down (n : nat) : list N :=
  match n with O => [] | S k => (N.of_nat k mod usize_max_1) :: ids_down k end.

(** Ids handed out and not yet used by an instance. *)
Definition inflight (m : idm) (i : N) : Prop := exists t, im_threads m t = Allocating i.

Record idm_ok (m : idm) : Prop := {
  ok_taken : im_taken m = ids_down (length (im_taken m));
  ok_cur : im_cur m = N.of_nat (length (im_taken m)) mod usize_max_1;
  ok_perm : exists ts, NoDup ts /\ (forall t, In t ts <-> im_threads m t <> Idle) /\
    Permutation (im_taken m)
      (flat_map (fun t => match im_threads m t with Allocating i => [i] | Idle => [] end) ts ++ map snd (im_instances m))
}.
Lemma umax : usize_max_1 <> 0.
Proof. discriminate. Qed.
Lemma succ_mod n : (n mod usize_max_1 + 1) mod usize_max_1 = (n + 1) mod usize_max_1.
Proof. rewrite N.add_mod_idemp_l by exact umax. reflexivity. Qed.

Lemma flat_set f t x ts : ~ In t ts ->
  flat_map (fun u => match set_thread f t x u with Allocating i => [i] | Idle => [] end) ts =
  flat_map (fun u => match f u with Allocating i => [i] | Idle => [] end) ts.
Proof.
  intros N. induction ts as [|u ts IH]; [reflexivity|]. cbn. rewrite IH by (cbn in N; tauto). f_equal.
  unfold set_thread. destruct (Nat.eqb_spec u t); [subst; cbn in N; tauto|reflexivity].
Qed.
Lemma step_ok t m : idm_ok m -> idm_ok (idm_step t m).
Proof.
  intros [H1 H2 (ts & Nd & Ts & P)]. unfold idm_step. destruct (im_threads m t) as [|i] eqn:E.
  - constructor; cbn [im_taken im_cur im_threads im_instances length].
    + cbn [ids_down]. rewrite H2 at 1. f_equal. exact H1.
    + rewrite H2, succ_mod. f_equal. lia.
    + exists (t :: ts). assert (Nt : ~ In t ts) by (rewrite Ts; congruence). split; [constructor; auto|]. split.
      * intros u. cbn [In]. rewrite Ts. unfold set_thread. destruct (Nat.eqb_spec u t) as [->|D].
        -- split; [discriminate|auto].
        -- split; [intros [->|K]; [contradiction|exact K]|auto].
      * cbn [flat_map]. rewrite flat_set by auto. unfold set_thread at 1. rewrite Nat.eqb_refl. cbn [app].
        constructor. exact P.
  - constructor; cbn [im_taken im_cur im_threads im_instances]; auto.
    assert (I : In t ts) by (apply Ts; congruence).
    apply in_split in I as (l1 & l2 & ->). exists (l1 ++ l2).
    assert (Nt : ~ In t (l1 ++ l2)) by (apply NoDup_remove_2; exact Nd).
    split; [apply NoDup_remove_1 in Nd; exact Nd|]. split.
    + intros u. specialize (Ts u). rewrite in_app_iff in *. cbn [In] in Ts. unfold set_thread.
      destruct (Nat.eqb_spec u t) as [->|D].
      * split; [intros K; exfalso; apply Nt; exact K|congruence].
      * rewrite <- Ts. split; [tauto|]. intros [K|[K|K]]; auto. congruence.
    + rewrite flat_set by auto. rewrite P. rewrite !flat_map_app. cbn [flat_map map snd]. rewrite E. cbn [app].
      rewrite <- !app_assoc. apply Permutation_app_head. cbn [app]. 
      apply Permutation_middle.
Qed.
Lemma run_ok sched : idm_ok (idm_run sched).
Proof.
  unfold idm_run. rewrite <- (rev_involutive sched). induction (rev sched) as [|t l IH]; cbn [rev].
  - cbn. constructor; cbn; auto. exists []. split; [constructor|]. split; [|constructor].
    intros t; cbn; split; [tauto|congruence].
  - rewrite fold_left_app. cbn [fold_left]. apply step_ok. exact IH.
Qed.

Lemma ids_nth n : forall k, (k < n)%nat -> nth_error (rev (ids_down n)) k = Some (N.of_nat k mod usize_max_1).
Proof.
  assert (L : forall n, length (ids_down n) = n) by (intros m; induction m; cbn; auto).
  induction n as [|n IH]; intros k H; [lia|]. cbn [ids_down rev]. destruct (Nat.eq_dec k n) as [->|D].
  - rewrite nth_error_app2; rewrite rev_length, L; [|lia]. rewrite Nat.sub_diag. reflexivity.
  - rewrite nth_error_app1; [apply IH; lia|]. rewrite rev_length, L. lia.
Qed.
(** The ids are handed out 0, 1, 2, ... in every schedule, modulo 2^64. *)
Theorem C13_ids_in_order sched k : (k < length (im_taken (idm_run sched)))%nat ->
  nth_error (rev (im_taken (idm_run sched))) k = Some (N.of_nat k mod 2 ^ 64).
Proof. intros H. rewrite (ok_taken _ (run_ok sched)). apply ids_nth. exact H. Qed.

Lemma ids_small n : N.of_nat n <= usize_max_1 -> ids_down n = rev (map N.of_nat (seq 0 n)).
Proof.
  induction n as [|n IH]; intros H; [reflexivity|]. rewrite seq_S, map_app, rev_app_distr. cbn [ids_down map rev app Nat.add].
  rewrite N.mod_small by lia. rewrite IH by lia. reflexivity.
Qed.
Lemma ids_nodup n : N.of_nat n <= usize_max_1 -> NoDup (ids_down n).
Proof.
  intros H. rewrite ids_small by exact H. apply NoDup_rev.
  apply FinFun.Injective_map_NoDup; [intros a b E; lia|apply seq_NoDup].
Qed.
Lemma NoDup_app_r {A} (l1 l2 : list A) : NoDup (l1 ++ l2) -> NoDup l2.
Proof. induction l1; cbn; auto. intros H. inversion H; auto. Qed.

(** No two instances have the same id as long as at most 2^64 ids were handed out, *)
Theorem C13_unique sched : N.of_nat (length (im_taken (idm_run sched))) <= 2 ^ 64 ->
  NoDup (map snd (im_instances (idm_run sched))).
Proof.
  intros H. destruct (run_ok sched) as [H1 H2 (ts & _ & _ & P)]. apply (NoDup_app_r (flat_map
    (fun t => match im_threads (idm_run sched) t with Allocating i => [i] | Idle => [] end) ts)).
  eapply Permutation_NoDup; [exact P|]. rewrite H1. apply ids_nodup. exact H.
Qed.
(** every instance has an id that was handed out, each handed out once; *)
Theorem C13_each_id_used_once sched :
  exists unused, Permutation (im_taken (idm_run sched)) (unused ++ map snd (im_instances (idm_run sched))) /\
    (forall i, In i unused <-> inflight (idm_run sched) i).
Proof.
  destruct (run_ok sched) as [H1 H2 (ts & Nd & Ts & P)]. eexists. split; [exact P|].
  intros i. rewrite in_flat_map. split.
  - intros (t & I & K). destruct (im_threads (idm_run sched) t) as [|j] eqn:E; [destruct K|].
    destruct K as [->|[]]. exists t. exact E.
  - intros (t & E). exists t. split; [apply Ts; congruence|]. rewrite E. left. reflexivity.
Qed.
(** after that they repeat: two ids handed out are equal iff their positions are equal modulo 2^64. *)
Theorem C13_wraps sched j k x y :
  nth_error (rev (im_taken (idm_run sched))) j = Some x -> nth_error (rev (im_taken (idm_run sched))) k = Some y ->
  (x = y <-> (N.of_nat j) mod 2 ^ 64 = (N.of_nat k) mod 2 ^ 64).
Proof.
  intros Hj Hk.
  assert (Lj : (j < length (im_taken (idm_run sched)))%nat).
  { rewrite <- rev_length. apply nth_error_Some. congruence. }
  assert (Lk : (k < length (im_taken (idm_run sched)))%nat).
  { rewrite <- rev_length. apply nth_error_Some. congruence. }
  rewrite C13_ids_in_order in Hj by exact Lj. rewrite C13_ids_in_order in Hk by exact Lk.
  injection Hj as <-. injection Hk as <-. reflexivity.
Qed.
(** Every number of creations is possible, so ids do repeat. *)
Theorem C13_wrap_reached n : exists sched, length (im_taken (idm_run sched)) = n /\ length (im_instances (idm_run sched)) = n.
Proof.
  assert (X : exists sched, length (im_taken (idm_run sched)) = n /\ length (im_instances (idm_run sched)) = n /\
                            im_threads (idm_run sched) 0%nat = Idle).
  { induction n as [|n (sched & L1 & L2 & I)]; [exists []; repeat split; reflexivity|].
    exists (sched ++ [0; 0]%nat). unfold idm_run in *. rewrite fold_left_app. cbn [fold_left].
    set (m := fold_left _ sched idm_init) in *. unfold idm_step at 2 4 6. rewrite I.
    unfold idm_step. cbn [im_threads im_taken im_instances]. unfold set_thread. cbn. auto. }
  destruct X as (sched & L1 & L2 & _). eauto.
Qed.
(** An interleaving of two threads: the later creation finishes first. *)
Example C13_ex : let m := idm_run [0; 1; 1; 0; 1]%nat in
  im_instances m = [(0%nat, 0); (1%nat, 1)] /\ inflight m 2.
Proof. split; [reflexivity|]. exists 1%nat. reflexivity. Qed.
Print Assumptions C13_ids_in_order.
Print Assumptions C13_unique.
Print Assumptions C13_each_id_used_once.
Print Assumptions C13_wraps.

(** ** C38 *)

(** How many times an address occurs. *)
Definition occ (a : addr) (l : list addr) : N := N.of_nat (count_occ N.eq_dec l a).
(** The handles to [a]: those of variables, and those held by instances. *)
Definition held (h : list (addr * inst)) (a : addr) : N :=
  fold_right N.add 0 (map (fun p => occ a (in_kids (snd p))) h).
Definition handles (s : rt) (a : addr) : N := occ a (rt_vars s) + held (rt_heap s) a.

Lemma occ_perm a l l' : Permutation l l' -> occ a l = occ a l'.
Proof. intros P. unfold occ. f_equal. apply Permutation_count_occ. exact P. Qed.
Lemma occ_app a l l' : occ a (l ++ l') = occ a l + occ a l'.
Proof. unfold occ. rewrite count_occ_app. lia. Qed.
Lemma occ_cons a b l : occ a (b :: l) = (if a =? b then 1 else 0) + occ a l.
Proof.
  unfold occ. cbn. destruct (N.eq_dec b a), (N.eqb_spec a b); try congruence; lia.
Qed.
Lemma occ_in a l : In a l <-> 1 <= occ a l.
Proof. unfold occ. rewrite (count_occ_In N.eq_dec). lia. Qed.

Lemma held_cons a b i h : held ((b, i) :: h) a = occ a (in_kids i) + held h a.
Proof. reflexivity. Qed.
Lemma held_in a b i h : In (b, i) h -> occ a (in_kids i) <= held h a.
Proof.
  induction h as [|[c j] h IH]; [intros []|]. rewrite held_cons. intros [E|I]; [inversion E; subst; lia|].
  specialize (IH I). lia.
Qed.
Lemma held_set h a n b : held (hset_strong h a n) b = held h b.
Proof.
  induction h as [|[c j] h IH]; [reflexivity|]. cbn [hset_strong]. destruct (a =? c); rewrite !held_cons; [reflexivity|].
  rewrite IH. reflexivity.
Qed.
Lemma held_remove h a i b : hfind h a = Some i -> held h b = occ b (in_kids i) + held (hremove h a) b.
Proof.
  induction h as [|[c j] h IH]; [discriminate|]. cbn [hfind hremove]. destruct (a =? c).
  - intros E; inversion E; subst. reflexivity.
  - intros E. rewrite !held_cons, IH by exact E. lia.
Qed.
Lemma find_in h a i : hfind h a = Some i -> In (a, i) h.
Proof.
  induction h as [|[c j] h IH]; [discriminate|]. cbn [hfind]. destruct (N.eqb_spec a c) as [->|D].
  - intros E; inversion E; subst. left. reflexivity.
  - intros E. right. auto.
Qed.
Lemma find_none h a : hfind h a = None <-> ~ In a (map fst h).
Proof.
  induction h as [|[c j] h IH]; cbn; [tauto|]. destruct (N.eqb_spec a c) as [->|D]; [split; [discriminate|tauto]|].
  rewrite IH. split; [intros H [E|E]; [congruence|auto]|tauto].
Qed.
Lemma in_find h a i : NoDup (map fst h) -> In (a, i) h -> hfind h a = Some i.
Proof.
  induction h as [|[c j] h IH]; [intros _ []|]. cbn [map fst]. intros N [E|I]; inversion N; subst.
  - inversion E; subst. cbn. rewrite N.eqb_refl. reflexivity.
  - cbn. destruct (N.eqb_spec a c) as [->|D]; auto. exfalso. apply H1. apply (in_map fst _ _ I).
Qed.
Lemma keys_set h a n : map fst (hset_strong h a n) = map fst h.
Proof. induction h as [|[c j] h IH]; [reflexivity|]. cbn. destruct (a =? c); cbn; congruence. Qed.
Lemma nths_set h a n : map (fun p => in_nth (snd p)) (hset_strong h a n) = map (fun p => in_nth (snd p)) h.
Proof. induction h as [|[c j] h IH]; [reflexivity|]. cbn. destruct (a =? c); cbn; congruence. Qed.
Lemma find_set h a n b : hfind (hset_strong h a n) b =
  match hfind h b with
  | Some i => Some (if b =? a then mkinst (in_nth i) n (in_kids i) else i)
  | None => None
  end.
Proof.
  induction h as [|[c j] h IH]; [reflexivity|]. cbn [hset_strong hfind].
  destruct (N.eqb_spec a c) as [->|D]; cbn [hfind].
  - destruct (N.eqb_spec b c); [subst b; rewrite ?N.eqb_refl; reflexivity|]. destruct (hfind h b); reflexivity.
  - destruct (N.eqb_spec b c); [subst b|exact IH]. destruct (N.eqb_spec c a); [congruence|reflexivity].
Qed.
Lemma remove_incl h a p : In p (hremove h a) -> In p h.
Proof. induction h as [|[c j] h IH]; [intros []|]. cbn. destruct (a =? c); cbn; tauto. Qed.
Lemma remove_keys h a x : In x (map fst (hremove h a)) -> In x (map fst h).
Proof. rewrite !in_map_iff. intros (p & <- & I). exists p. split; auto. eapply remove_incl; eauto. Qed.
Lemma NoDup_remove' {B} (f : addr * inst -> B) h a : NoDup (map f h) -> NoDup (map f (hremove h a)).
Proof.
  induction h as [|[c j] h IH]; cbn; [auto|]. intros N. inversion N; subst. destruct (a =? c); cbn; auto.
  constructor; auto. intros I. apply H1. rewrite in_map_iff in *. destruct I as (p & <- & I). exists p.
  split; auto. eapply remove_incl; eauto.
Qed.
Lemma find_remove h a b : NoDup (map fst h) -> hfind (hremove h a) b = if b =? a then None else hfind h b.
Proof.
  induction h as [|[c j] h IH]; cbn [hremove hfind map fst]; intros N.
  - destruct (b =? a); reflexivity.
  - inversion N; subst. destruct (N.eqb_spec a c) as [->|D]; cbn [hfind].
    + destruct (N.eqb_spec b c); auto. subst b. apply find_none. exact H1.
    + destruct (N.eqb_spec b c); [subst b|auto]. destruct (N.eqb_spec c a); [congruence|reflexivity].
Qed.

(** The invariant: the count of a live instance is the number of its handles plus the number of
    drops that have begun; a dead address has none; instances hold older instances. *)
Record rt_ok (s : rt) : Prop := {
  rk_keys : NoDup (map fst (rt_heap s));
  rk_nths : NoDup (map (fun p => in_nth (snd p)) (rt_heap s));
  rk_old : forall a i, In (a, i) (rt_heap s) -> (in_nth i < rt_created s)%nat;
  rk_count : forall a, handles s a + occ a (rt_drop s) =
    match hfind (rt_heap s) a with Some i => in_strong i | None => 0 end;
  rk_pos : forall a i, hfind (rt_heap s) a = Some i -> 1 <= in_strong i;
  rk_down : forall a i k j, hfind (rt_heap s) a = Some i -> In k (in_kids i) -> hfind (rt_heap s) k = Some j ->
    (in_nth j < in_nth i)%nat
}.

Lemma init_ok : rt_ok rt_init.
Proof. constructor; cbn; try constructor; try discriminate; try tauto. Qed.
Lemma set_in h a n b i : NoDup (map fst h) -> In (b, i) (hset_strong h a n) -> exists j, In (b, j) h /\ in_nth j = in_nth i /\ in_kids j = in_kids i.
Proof.
  intros N I. apply in_find in I; [|rewrite keys_set; exact N]. rewrite find_set in I.
  destruct (hfind h b) as [j|] eqn:E; [|discriminate]. exists j. split; [apply find_in; exact E|].
  inversion I; subst. destruct (b =? a); auto.
Qed.
(** Changing one count. *)
Lemma set_ok s a i n vars drop : rt_ok s -> hfind (rt_heap s) a = Some i -> 1 <= n ->
  (forall b, occ b vars + occ b drop + (if b =? a then in_strong i else 0) =
             occ b (rt_vars s) + occ b (rt_drop s) + (if b =? a then n else 0)) ->
  rt_ok (mkrt (hset_strong (rt_heap s) a n) vars drop (rt_created s)).
Proof.
  intros [K1 K2 K3 K4 K5 K6] F P C. constructor; cbn [rt_heap rt_vars rt_drop rt_created].
  - rewrite keys_set. exact K1.
  - rewrite nths_set. exact K2.
  - intros b j I. apply set_in in I as (j' & I & E & _); auto. rewrite <- E. eauto.
  - intros b. unfold handles in *. cbn [rt_heap rt_vars]. rewrite held_set, find_set. specialize (K4 b). specialize (C b).
    destruct (N.eqb_spec b a) as [E|D]; [subst b|].
    + rewrite F in *. cbn [in_strong]. lia.
    + destruct (hfind (rt_heap s) b); lia.
  - intros b j. rewrite find_set. destruct (hfind (rt_heap s) b) eqn:E; [|discriminate].
    intros X; inversion X; subst. destruct (b =? a); [exact P|eauto].
  - intros b j k l. rewrite !find_set. destruct (hfind (rt_heap s) b) as [j'|] eqn:E1; [|discriminate].
    destruct (hfind (rt_heap s) k) as [l'|] eqn:E2; [|intros _ _ X; discriminate].
    intros X I Y. assert (J : in_kids j' = in_kids j /\ in_nth j' = in_nth j) by (inversion X; subst; destruct (b =? a); auto).
    assert (L : in_nth l' = in_nth l) by (inversion Y; subst; destruct (k =? a); auto).
    destruct J as [J1 J2]. rewrite <- L, <- J2. apply (K6 b j' k l'); auto. rewrite J1. exact I.
Qed.
Lemma rt_step_ok s s' : rt_ok s -> rt_step s s' -> rt_ok s'.
Proof.
  intros K St. pose proof K as [K1 K2 K3 K4 K5 K6].
  destruct St as [s a kids vars P F|s a i A F|s a vars P|s a i rest P F N|s a i rest P F N].
  - assert (Z : handles s a + occ a (rt_drop s) = 0) by (rewrite K4, F; reflexivity).
    constructor; cbn [rt_heap rt_vars rt_drop rt_created].
    + cbn [map fst]. constructor; auto. apply find_none. exact F.
    + cbn [map snd in_nth]. constructor; auto. intros I. apply in_map_iff in I as ([b j] & E & I). cbn in E.
      specialize (K3 _ _ I). lia.
    + intros b j [E|I]; [inversion E; subst; cbn; lia|]. specialize (K3 _ _ I). lia.
    + intros b. specialize (K4 b). unfold handles in *. cbn [rt_heap rt_vars]. rewrite (occ_perm b _ _ P) in K4.
      rewrite held_cons, occ_cons. rewrite occ_app in K4. cbn [in_kids hfind].
      destruct (N.eqb_spec b a) as [E|D]; [subst b|].
      * rewrite F in K4. cbn [in_strong]. lia.
      * lia.
    + intros b j. cbn [hfind]. destruct (b =? a); [intros E; inversion E; cbn; lia|eauto].
    + intros b j k l Fb Ik Fk. cbn [hfind] in Fb, Fk.
      destruct (N.eqb_spec b a) as [E|D]; [subst b|].
      * assert (Kj : in_kids j = kids /\ in_nth j = rt_created s) by (inversion Fb; split; reflexivity).
        destruct Kj as [E1 E2]. rewrite E2. rewrite E1 in Ik.
        destruct (N.eqb_spec k a) as [E'|D']; [subst k|].
        -- exfalso. apply occ_in in Ik. unfold handles in Z. rewrite (occ_perm _ _ _ P), occ_app in Z. lia.
        -- apply find_in in Fk. apply (K3 _ _ Fk).
      * destruct (N.eqb_spec k a) as [E'|D']; [subst k|].
        -- exfalso. apply occ_in in Ik. apply find_in in Fb. pose proof (held_in a _ _ _ Fb). unfold handles in Z. lia.
        -- eauto.
  - apply (set_ok s a i); auto.
    + lia.
    + intros b. rewrite occ_cons. destruct (b =? a); lia.
  - constructor; cbn [rt_heap rt_vars rt_drop rt_created]; auto.
    intros b. specialize (K4 b). unfold handles in *. cbn [rt_heap rt_vars]. rewrite (occ_perm _ _ _ P) in K4.
    rewrite occ_cons in *. lia.
  - specialize (K5 _ _ F). apply (set_ok s a i); auto.
    + lia.
    + intros b. rewrite (occ_perm _ _ _ P), occ_cons. destruct (b =? a); lia.
  - assert (Z : handles s a + occ a rest = 0).
    { specialize (K4 a). rewrite F, N, (occ_perm _ _ _ P), occ_cons, N.eqb_refl in K4. lia. }
    constructor; cbn [rt_heap rt_vars rt_drop rt_created].
    + apply NoDup_remove'. exact K1.
    + apply NoDup_remove'. exact K2.
    + intros b j I. apply remove_incl in I. eauto.
    + intros b. specialize (K4 b). unfold handles in *. cbn [rt_heap rt_vars].
      rewrite (held_remove _ _ _ b F) in K4. rewrite (occ_perm _ _ _ P), occ_cons in K4. rewrite occ_app, find_remove by exact K1.
      destruct (N.eqb_spec b a) as [E|D]; [subst b|].
      * rewrite F, N in K4. lia.
      * lia.
    + intros b j. rewrite find_remove by exact K1. destruct (b =? a); [discriminate|eauto].
    + intros b j k l. rewrite !find_remove by exact K1. destruct (b =? a); [discriminate|].
      destruct (k =? a); [intros _ _ X; discriminate|eauto].
Qed.
Lemma reach_ok s : rt_reach s -> rt_ok s.
Proof. induction 1; [exact init_ok|eapply rt_step_ok; eauto]. Qed.

(** In every history the count of an instance is the number of its handles, if no drop is in
    progress; and in between it exceeds that number by the drops begun. *)
Theorem C38_num_references s a n : rt_reach s -> num_references s a = Some n ->
  n = handles s a + occ a (rt_drop s) /\ 1 <= n.
Proof.
  intros R E. apply reach_ok in R. unfold num_references in E. destruct (hfind (rt_heap s) a) as [i|] eqn:F; [|discriminate].
  inversion E; subst. pose proof (rk_count _ R a) as C. rewrite F in C. split; [lia|]. eapply rk_pos; eauto.
Qed.
Corollary C38_quiescent s a n : rt_reach s -> rt_drop s = [] -> num_references s a = Some n -> n = handles s a.
Proof. intros R D E. destruct (C38_num_references s a n R E) as [-> _]. rewrite D. cbn. lia. Qed.

(** A handle always points to a live instance: nothing is freed early. *)
Theorem C38_no_dangling s a : rt_reach s -> 1 <= handles s a -> exists n, num_references s a = Some n /\ 1 <= n.
Proof.
  intros R H. apply reach_ok in R. pose proof (rk_count _ R a) as C. unfold num_references.
  destruct (hfind (rt_heap s) a) as [i|] eqn:F; [|lia]. exists (in_strong i). split; [reflexivity|]. eapply rk_pos; eauto.
Qed.
(** And nothing is freed late: an instance without handles and drops in progress does not exist. *)
Theorem C38_freed s a : rt_reach s -> handles s a = 0 -> ~ In a (rt_drop s) -> num_references s a = None.
Proof.
  intros R H D. apply reach_ok in R. pose proof (rk_count _ R a) as C. unfold num_references.
  destruct (hfind (rt_heap s) a) as [i|] eqn:F; [|reflexivity]. pose proof (rk_pos _ R _ _ F).
  rewrite occ_in in D. lia.
Qed.

(** [ptr_eq] of two live handles tells whether they denote the same instance, although addresses
    are reused. *)
Theorem C38_ptr_eq s a b i j : rt_reach s -> hfind (rt_heap s) a = Some i -> hfind (rt_heap s) b = Some j ->
  (ptr_eq a b = true <-> in_nth i = in_nth j).
Proof.
  intros R Fa Fb. apply reach_ok in R. unfold ptr_eq. rewrite N.eqb_eq. split; [intros ->; congruence|].
  intros E. apply find_in in Fa. apply find_in in Fb. pose proof (rk_nths _ R) as N. clear R.
  induction (rt_heap s) as [|[c k] h IH]; [destruct Fa|]. cbn [map snd in_nth] in N. inversion N; subst.
  destruct Fa as [Ea|Ia], Fb as [Eb|Ib].
  - congruence.
  - inversion Ea; subst. exfalso. apply H1. rewrite E. apply (in_map (fun p => in_nth (snd p)) h (b, j) Ib).
  - inversion Eb; subst. exfalso. apply H1. rewrite <- E. apply (in_map (fun p => in_nth (snd p)) h (a, i) Ia).
  - auto.
Qed.

(** Instances never hold themselves, directly or not; so when the program holds no handle any more,
    everything is freed. *)
Theorem C38_no_leak s : rt_reach s -> rt_vars s = [] -> rt_drop s = [] -> rt_heap s = [].
Proof.
  intros R V D. apply reach_ok in R.
  (* the youngest instance has no handle *)
  assert (Y : rt_heap s = [] \/ exists a i, In (a, i) (rt_heap s) /\ forall b j, In (b, j) (rt_heap s) -> (in_nth j <= in_nth i)%nat).
  { clear. induction (rt_heap s) as [|[c k] h [->|(a & i & I & M)]]; [auto| |]; right.
    - exists c, k. split; [left; reflexivity|]. intros b j [E|[]]. inversion E; subst. lia.
    - destruct (Nat.le_gt_cases (in_nth k) (in_nth i)) as [L|L].
      + exists a, i. split; [right; exact I|]. intros b j [E|Ib]; [inversion E; subst; lia|eauto].
      + exists c, k. split; [left; reflexivity|]. intros b j [E|Ib]; [inversion E; subst; lia|].
        specialize (M _ _ Ib). lia. }
  destruct Y as [Y|(a & i & I & M)]; [exact Y|exfalso].
  pose proof (in_find _ _ _ (rk_keys _ R) I) as F. pose proof (rk_count _ R a) as C. rewrite F in C.
  pose proof (rk_pos _ R _ _ F) as P. unfold handles in C. rewrite V, D in C. cbn [occ count_occ] in C.
  assert (H : exists b j, In (b, j) (rt_heap s) /\ In a (in_kids j)).
  { assert (L : 1 <= held (rt_heap s) a) by (unfold occ in C; cbn in C; lia). clear - L.
    induction (rt_heap s) as [|[c k] h IH]; [cbn in L; lia|]. rewrite held_cons in L.
    destruct (N.le_gt_cases 1 (occ a (in_kids k))) as [O|O].
    - exists c, k. split; [left; reflexivity|]. apply occ_in. exact O.
    - destruct IH as (b & j & Ib & Ia); [lia|]. exists b, j. split; [right; exact Ib|exact Ia]. }
  destruct H as (b & j & Ib & Ia). pose proof (in_find _ _ _ (rk_keys _ R) Ib) as Fb.
  pose proof (rk_down _ R _ _ _ _ Fb Ia F). specialize (M _ _ Ib). lia.
Qed.

(** Drops finish: a drop in progress can always go on, and no more than the sum of all counts steps
    are left. *)
Definition strong_sum (s : rt) : N := fold_right N.add 0 (map (fun p => in_strong (snd p)) (rt_heap s)).
Lemma sum_set h a i n : hfind h a = Some i ->
  fold_right N.add 0 (map (fun p => in_strong (snd p)) (hset_strong h a n)) + in_strong i =
  fold_right N.add 0 (map (fun p => in_strong (snd p)) h) + n.
Proof.
  induction h as [|[c k] h IH]; [discriminate|]. cbn [hfind hset_strong]. destruct (a =? c).
  - intros E; inversion E; subst. cbn. lia.
  - intros E. cbn [map fold_right snd]. specialize (IH E). lia.
Qed.
Lemma sum_remove h a i : hfind h a = Some i ->
  fold_right N.add 0 (map (fun p => in_strong (snd p)) (hremove h a)) + in_strong i =
  fold_right N.add 0 (map (fun p => in_strong (snd p)) h).
Proof.
  induction h as [|[c k] h IH]; [discriminate|]. cbn [hfind hremove]. destruct (a =? c).
  - intros E; inversion E; subst. cbn. lia.
  - intros E. cbn [map fold_right snd]. specialize (IH E). lia.
Qed.
Theorem C38_drops_finish s : rt_reach s ->
  (rt_drop s <> [] -> exists s', rt_drop_step s s') /\
  (forall s', rt_drop_step s s' -> rt_step s s' /\ strong_sum s' < strong_sum s).
Proof.
  intros R. apply reach_ok in R. split.
  - intros N. destruct (rt_drop s) as [|a rest] eqn:D; [contradiction|].
    pose proof (rk_count _ R a) as C. rewrite D, occ_cons, N.eqb_refl in C.
    destruct (hfind (rt_heap s) a) as [i|] eqn:F; [|lia].
    destruct (N.eq_dec (in_strong i) 1) as [E|E].
    + eexists. apply (ds_free s a i rest); auto. rewrite D. reflexivity.
    + eexists. apply (ds_dec s a i rest); auto. rewrite D. reflexivity.
  - intros s' St. destruct St as [s a i rest P F E|s a i rest P F E].
    + split; [apply (st_dec s a i rest); auto|]. unfold strong_sum. cbn [rt_heap].
      pose proof (sum_set _ _ _ (in_strong i - 1) F). pose proof (rk_pos _ R _ _ F). lia.
    + split; [apply (st_free s a i rest); auto|]. unfold strong_sum. cbn [rt_heap].
      pose proof (sum_remove _ _ _ F). lia.
Qed.

(** A history: x = [], two clones of x, y = [x, x] holding them. *)
Lemma step_to s s1 s' : rt_reach s -> rt_step s s1 -> s1 = s' -> rt_reach s'.
Proof. intros R St <-. eapply rr_step; eauto. Qed.
Example C38_ex : exists s, rt_reach s /\ rt_drop s = [] /\ rt_vars s = [20; 10] /\
  num_references s 10 = Some 3 /\ num_references s 20 = Some 1 /\ handles s 10 = 3.
Proof.
  exists (mkrt [(20, mkinst 1 1 [10; 10]); (10, mkinst 0 3 [])] [20; 10] [] 2). split; [|repeat split].
  eapply step_to; [|apply (st_new _ 20 [10; 10] [10])|].
  - eapply step_to; [|apply (st_clone _ 10 (mkinst 0 2 []))|].
    + eapply step_to; [|apply (st_clone _ 10 (mkinst 0 1 []))|].
      * eapply step_to; [apply rr_init|apply (st_new rt_init 10 [] [])|reflexivity].
        -- reflexivity.
        -- reflexivity.
      * apply acc_var. left. reflexivity.
      * reflexivity.
      * reflexivity.
    + apply acc_var. left. reflexivity.
    + reflexivity.
    + reflexivity.
  - reflexivity.
  - reflexivity.
  - reflexivity.
Qed.
Print Assumptions C38_num_references.
Print Assumptions C38_ptr_eq.
Print Assumptions C38_no_dangling.
Print Assumptions C38_no_leak.
Print Assumptions C38_drops_finish.
