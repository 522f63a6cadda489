(** * SizeLoad: the levels of what the parser makes, by induction over its functions. *)
From Verif Require Export SizeProofs.
From Coq Require String.
Import String.StringSyntax.
Open Scope Z_scope.

(** The values a stream can get at: its globals and the files included so far. *)
Definition st (b : Z) (s : pstate) : Prop := sps b (s_globals s) /\ sps b (sh_vals (s_sh s)).
Lemma st_mono a b s : 0 <= a <= b -> st a s -> st b s.
Proof. intros H [X Y]. split; eapply sps_mono; eauto. Qed.
Lemma st_keep b s q : keep s q -> st b s -> st b q.
Proof. intros [G V] [X Y]. split; [rewrite G|rewrite V]; assumption. Qed.
Lemma st_up a b s q : keep s q -> 0 <= a <= b -> st a s -> st b q.
Proof. intros K H S. eapply st_mono; eauto. eapply st_keep; eauto. Qed.

Section Sz.
Context `{U : Unicode}.
Variable W : nat -> Z.
Hypothesis W0 : forall i, 0 <= W i.
(** The characters taken: of this stream and of the files opened. *)
Definition spent (s q : pstate) (u : meter) : Z := slen s - slen q + sumZ W (m_reads u).
Definition sz {A} (c : Mt A) (s : pstate) (Q : A -> pstate -> Z -> Prop) : Prop :=
  match c s with (Ok x, q, u) => Q x q (spent s q u) | _ => True end.
Lemma sumW0 l : 0 <= sumZ W l.
Proof. induction l as [|i l IH]; cbn [sumZ]; [lia|]. specialize (W0 i). lia. Qed.
Lemma sz_weak {A} (c : Mt A) s (Q R : A -> pstate -> Z -> Prop) : sz c s Q -> (forall x q d, Q x q d -> R x q d) -> sz c s R.
Proof. unfold sz. intros H F. destruct (c s) as [[[x|k| |] q] u]; auto. Qed.
Lemma sz_tick {A} (c : Mt A) s Q : sz c s Q -> sz (tick c) s Q.
Proof. unfold sz, tick. destruct (c s) as [[[x|k| |] q] u]; auto. Qed.
Lemma sz_bind {A B} (c : Mt A) (f : A -> Mt B) s Q : sz c s (fun x q d => sz (f x) q (fun y q' d' => Q y q' (d + d'))) -> sz (cbind c f) s Q.
Proof.
  unfold sz, cbind. destruct (c s) as [[[x|k| |] q] u]; auto. destruct (f x q) as [[[y|k| |] q'] u']; auto.
  unfold spent. cbn [m_add m_reads]. rewrite sumZ_app. intros H.
  replace (slen s - slen q' + (sumZ W (m_reads u) + sumZ W (m_reads u'))) with (slen s - slen q + sumZ W (m_reads u) + (slen q - slen q' + sumZ W (m_reads u'))) by lia. exact H.
Qed.
Lemma sz_spare {B} n (f : unit -> Mt B) s Q : sz (f tt) s Q -> sz (cbind (c_spare n) f) s Q.
Proof.
  unfold sz, cbind, c_spare. destruct (f tt s) as [[[x|k| |] q] u]; auto.
Qed.
Lemma sz_lift {A} (m : M A) s (Q : A -> pstate -> Z -> Prop) : shr m -> kp m ->
  (forall x q, m s = (Ok x, q) -> slen q <= slen s -> keep s q -> Q x q (slen s - slen q)) -> sz (lift m) s Q.
Proof.
  intros S K H. specialize (S s). specialize (K s). unfold sz, lift. destruct (m s) as [[x|k| |] q]; auto. unfold spent. cbn [fst snd m_reads sumZ] in *.
  rewrite Z.add_0_r. apply H; auto.
Qed.
Lemma sz_assoc {A B D} (m : Mt A) (g : A -> Mt B) (f : B -> Mt D) s Q :
  sz (cbind m (fun x => cbind (g x) f)) s Q -> sz (cbind (cbind m g) f) s Q.
Proof.
  unfold sz, cbind. destruct (m s) as [[[x|k| |] q] u]; auto. destruct (g x q) as [[[y|k| |] q'] u']; auto.
  destruct (f y q') as [[[z|k| |] q''] u'']; auto. unfold spent. cbn [m_add m_reads]. rewrite !sumZ_app. intros H.
  match goal with H : Q _ _ ?a |- Q _ _ ?b => replace b with a by lia end. exact H.
Qed.

Ltac kps := first [apply kp_next|apply kp_find|apply kp_str|apply kp_numeric|apply kp_field|apply kp_unary|apply kp_binop|apply kp_token|apply kp_index|apply kp_lookup|apply kp_scan|solve [repeat k1]].
Ltac shrs := first [apply shr_next|apply shr_find|apply shr_str|apply shr_numeric|apply shr_field|apply shr_unary|apply shr_binop|apply shr_token|apply shr_index|apply shr_lookup|apply shr_vscan|solve [repeat s1]].
Ltac unc := unfold c_peek_unwrap, c_next_unwrap, c_peek, c_next, c_find_char, c_getpos, c_getline, c_getfile, c_col_minus_1, c_get_globals, c_get_sh, c_panic, c_nofuel, c_parse_str,
  c_ret, c_fail, c_raise, c_assert_, c_check_value_end, c_new_obj, c_new_arr, c_new_tup, c_parse_numeric, c_parse_field, c_lookup_variable, c_index_by, c_include_token,
  c_unary_op_on_value, c_binary_op_on_values.
Ltac fact J :=
  match type of J with
  | peek_unwrap _ = _ => let R := fresh "R" in let r := fresh "r" in apply peek_unwrap_sees in J as [-> (r & R)]
  | next_unwrap _ = _ => let R := fresh "R" in let r := fresh "r" in apply next_unwrap_takes in J as [J (r & R)]
  | peek _ = _ => let R := fresh "R" in apply peek_sees in J as [-> R]
  | ret _ _ = _ => injection J as <- <-
  | fail _ _ = _ => discriminate J
  | raise _ _ = _ => discriminate J
  | panic _ = _ => discriminate J
  | nofuel _ = _ => discriminate J
  | getpos _ = _ => injection J as <- <-
  | getline _ = _ => injection J as <- <-
  | getfile _ = _ => injection J as <- <-
  | assert_ _ ?s = (Ok ?x, _) => destruct x; apply assert_true in J as [J ->]
  | _ => idtac
  end.
Ltac lf := apply sz_lift; [shrs|kps|let J := fresh "J" in let L := fresh "L" in let K := fresh "K" in intros ? ? J L K; fact J; try (match type of K with keep ?a ?a => clear K end); cbv beta].
Ltac z0 :=
  match goal with
  | |- sz (tick _) _ _ => apply sz_tick
  | |- sz (cbind (c_spare _) _) _ _ => apply sz_spare
  | |- sz (cbind (lift _) _) _ _ => apply sz_bind; lf
  | |- sz (cbind (cbind _ _) _) _ _ => apply sz_assoc
  | |- sz (cbind (if ?b then _ else _) _) _ _ => let D := fresh "D" in destruct b eqn:D
  | |- sz (cbind (match ?x with _ => _ end) _) _ _ => let D := fresh "D" in destruct x eqn:D
  | |- sz (if ?b then _ else _) _ _ => let D := fresh "D" in destruct b eqn:D
  | |- sz (match ?x with _ => _ end) _ _ => let D := fresh "D" in destruct x eqn:D
  | |- sz (lift _) _ _ => lf
  end.

(** ** The waiting operands, from the last one back: each a level below the next. *)
Fixpoint tower (c : Z) (l : list value) : Prop :=
  match l with [] => True | v :: l => 0 <= c /\ small c v /\ tower (c - 1) l end.
Lemma tower_mono l : forall a b, a <= b -> tower a l -> tower b l.
Proof. induction l as [|v l IH]; intros a b H; cbn [tower]; [auto|]. intros (A & B & C). repeat split; [lia|eapply small_mono; [|exact B]; lia|eapply IH; [|exact C]; lia]. Qed.
Fixpoint stairs (e : Z) (l : list value) : Prop :=
  match l with [] => True | v :: l => small (e + 1) v /\ stairs (e + 1) l end.
Lemma stairs_snoc l : forall e v, stairs e l -> small (e + Z.of_nat (length l) + 1) v -> stairs e (l ++ [v]).
Proof.
  induction l as [|w l IH]; intros e v; cbn [stairs app length].
  - intros _ H. split; auto. replace (e + Z.of_nat 0 + 1) with (e + 1) in H by lia. exact H.
  - intros [A B] H. split; auto. apply IH; auto. replace (e + 1 + Z.of_nat (length l) + 1) with (e + Z.of_nat (S (length l)) + 1) by lia. exact H.
Qed.
Lemma tower_stairs l : forall c v, tower c (rev l ++ [v]) -> exists e, 0 <= e /\ e + Z.of_nat (length l) = c /\ small e v /\ stairs e l.
Proof.
  induction l as [|w l IH] using rev_ind; intros c v.
  - cbn. intros (A & B & _). exists c. repeat split; auto. lia.
  - rewrite rev_app_distr. cbn [rev app tower]. intros (A & B & C). apply IH in C as (e & E & F & G & H). exists e. rewrite app_length. cbn [length].
    repeat split; auto; [lia|]. apply stairs_snoc; auto. replace (e + Z.of_nat (length l) + 1) with c by lia. exact B.
Qed.
Lemma low_sz ops : forall v vals e s, 0 <= e -> small (e + 1) v -> stairs e (map (fun x => fst (fst x)) vals) ->
  sz (ct_eval_low_ops v vals ops) s (fun r q d => 0 <= d /\ keep s q /\ small (e + Z.of_nat (length vals) + 1) r).
Proof.
  induction ops as [|op ops IH]; intros v vals e s E V S.
  - assert (Eq : ct_eval_low_ops v vals [] = lift (ret v)) by (destruct vals; reflexivity). rewrite Eq. lf. repeat split; [lia|]. eapply small_mono; [|exact V]. lia.
  - destruct vals as [|[[v2 l2] c2] vals].
    + change (ct_eval_low_ops v [] (op :: ops)) with (tick (lift (@panic value))). apply sz_tick. lf.
    + change (ct_eval_low_ops v ((v2, l2, c2) :: vals) (op :: ops)) with
        (tick (cbind (cbind (c_spare (levels v)) (fun _ => cbind (c_spare (levels v2)) (fun _ => lift (binary_op_on_values v v2 op l2 c2)))) (fun x => ct_eval_low_ops x vals ops))).
      cbn [map fst stairs] in S. destruct S as [S1 S2]. apply sz_tick. apply sz_assoc, sz_spare, sz_assoc, sz_spare, sz_bind. lf.
      apply (binop_small (e + 1)) in J; [|lia|exact V|exact S1]. eapply sz_weak; [apply (IH _ _ (e + 1)); auto; lia|].
      cbv beta. intros r q' d (D & K' & R). split; [lia|]. split; [eapply keep_trans; eauto|]. cbn [length]. replace (e + Z.of_nat (S (length vals)) + 1) with (e + 1 + Z.of_nat (length vals) + 1) by lia. exact R.
Qed.

Section Files.
Variable fs : fsys.
Variable lic : inc_ty -> str -> shared -> (outcome value * shared) * meter.
Hypothesis HL : forall ty p sh b, is_file fs p = true -> 0 <= b -> sps b (sh_vals sh) ->
  match lic ty p sh with (Ok v, sh', u) => 0 <= sumZ W (m_reads u) /\ sps (b + sumZ W (m_reads u)) (sh_vals sh') /\ small (b + sumZ W (m_reads u)) v | _ => True end.

Lemma put_sz {B} sh (f : unit -> Mt B) s Q : sz (f tt) (set_sh s sh) Q -> sz (cbind (c_put_sh sh) f) s Q.
Proof.
  intros H. apply sz_bind. unfold sz at 1, c_put_sh, lift, put_sh. unfold spent. cbn [fst snd m_reads sumZ]. unfold slen at 1 2. cbn [s_rest set_sh].
  eapply sz_weak; [exact H|]. intros x q d. cbv beta. replace (Z.of_nat (length (s_rest s)) - Z.of_nat (length (s_rest s)) + 0 + d) with d by lia. auto.
Qed.
Lemma get_sz {B} (f : shared -> Mt B) s Q : sz (f (s_sh s)) s Q -> sz (cbind c_get_sh f) s Q.
Proof.
  intros H. apply sz_bind. unfold sz at 1, c_get_sh, lift, get_sh. unfold spent. cbn [fst snd m_reads sumZ].
  eapply sz_weak; [exact H|]. intros x q d. cbv beta. replace (slen s - slen s + 0 + d) with d by lia. auto.
Qed.
Lemma ret_sz {A B} (a : A) (f : A -> Mt B) s Q : sz (f a) s Q -> sz (cbind (c_ret a) f) s Q.
Proof.
  intros H. apply sz_bind. unfold sz at 1, c_ret, lift, ret. unfold spent. cbn [fst snd m_reads sumZ].
  eapply sz_weak; [exact H|]. intros x q d. cbv beta. replace (slen s - slen s + 0 + d) with d by lia. auto.
Qed.
Lemma getfile_sz {B} (f : option str -> Mt B) s Q : sz (f (s_file s)) s Q -> sz (cbind c_getfile f) s Q.
Proof.
  intros H. apply sz_bind. unfold sz at 1, c_getfile, lift, getfile. unfold spent. cbn [fst snd m_reads sumZ].
  eapply sz_weak; [exact H|]. intros x q d. cbv beta. replace (slen s - slen s + 0 + d) with d by lia. auto.
Qed.
Lemma assert_sz {B} b (f : unit -> Mt B) s Q : sz (f tt) s Q -> sz (cbind (c_assert_ b) f) s Q.
Proof.
  intros H. apply sz_bind. unfold sz at 1, c_assert_, lift, assert_. destruct b; [|exact I]. unfold ret, spent. cbn [fst snd m_reads sumZ].
  eapply sz_weak; [exact H|]. intros x q d. cbv beta. replace (slen s - slen s + 0 + d) with d by lia. auto.
Qed.
Lemma include_sz ty p s b : is_file fs p = true -> 0 <= b -> st b s -> sz (ct_run_include lic ty p) s (fun v q d => 0 <= d /\ st (b + d) q /\ small (b + d) v /\ slen q = slen s).
Proof.
  intros F B [G V]. specialize (HL ty p (s_sh s) b F B V). unfold sz, ct_run_include. destruct (lic ty p (s_sh s)) as [[[x|k| |] sh] u]; auto.
  unfold spent, slen. cbn [s_rest set_sh]. destruct HL as (D & X & Y). rewrite Z.sub_diag, Z.add_0_l. split; [lia|].
  split; [split; [cbn [s_globals set_sh]; eapply sps_mono; [|exact G]; lia|exact X]|]. auto.
Qed.
Lemma finish_sz ty f l k s b : 0 <= b -> st b s -> sz (ct_finish_include fs lic ty f l k) s (fun v q d => 0 <= d /\ st (b + d) q /\ small (b + d) v).
Proof.
  intros B S. unfold ct_finish_include. unfold c_panic, c_fail. apply getfile_sz, assert_sz. cbv zeta. set (x := s_file s).
  destruct (is_file fs _) eqn:F; cbn [negb]; [|lf]. destruct (canon fs _) as [full|]; [|lf]. apply get_sz, put_sz.
  assert (G : forall (storing : option str) s', st b s' -> slen s' = slen s -> forall e, e = 0 ->
    sz (cbind c_get_sh (fun sh =>
        if mem_str full (sh_open sh) then lift (fail (CyclicInclude f l k))
        else
          let+ value :=
            (match assoc full (sh_vals sh) with
             | Some v => c_ret v
             | None =>
                 let+ v := ct_run_include lic ty (match x with Some f0 => beside f0 f | None => f end) in
                 let+ sh := c_get_sh in
                 let+ _ := c_put_sh (mksh ((full, v) :: sh_vals sh) (sh_open sh) (sh_log sh) (sh_g sh)) in
                 c_ret v
             end) in
          let+ sh := c_get_sh in
          let+ _ :=
            (match storing with
             | Some f => c_put_sh (mksh (sh_vals sh) (filter (fun x => negb (str_eqb x f)) (sh_open sh)) (sh_log sh) (sh_g sh))
             | None => c_ret tt
             end) in
          let+ sh := c_get_sh in
          let+ _ := c_put_sh (log_ev (EInc full ty value) sh) in
          c_ret value)) s' (fun v q d => 0 <= e + d /\ st (b + (e + d)) q /\ small (b + (e + d)) v)).
  { intros storing s' S' L' e ->. apply get_sz. destruct (mem_str _ _); [lf|].
    assert (T : forall v s2 d, 0 <= d -> st (b + d) s2 -> small (b + d) v ->
      sz (let+ sh := c_get_sh in
          let+ _ :=
            (match storing with
             | Some f => c_put_sh (mksh (sh_vals sh) (filter (fun x => negb (str_eqb x f)) (sh_open sh)) (sh_log sh) (sh_g sh))
             | None => c_ret tt
             end) in
          let+ sh := c_get_sh in
          let+ _ := c_put_sh (log_ev (EInc full ty v) sh) in
          c_ret v) s2 (fun v q d' => 0 <= d + d' /\ st (b + (d + d')) q /\ small (b + (d + d')) v)).
    { intros v s2 d D S2 V. apply get_sz. destruct storing; [apply put_sz|apply ret_sz]; apply get_sz, put_sz; unfold c_ret; lf.
      all: rewrite Z.sub_diag, Z.add_0_r; split; [lia|]; split; [exact S2|exact V]. }
    destruct (assoc full (sh_vals (s_sh s'))) as [v|] eqn:A.
    - apply ret_sz. apply assoc_in in A. eapply sz_weak; [apply (T v s' 0); [lia|rewrite Z.add_0_r; exact S'|rewrite Z.add_0_r; apply S' in A; exact A]|]. cbv beta. auto.
    - apply sz_assoc, sz_bind. eapply sz_weak; [apply include_sz; eauto|]. cbv beta. intros v q d (D & Sq & V & _). apply sz_assoc, get_sz, sz_assoc, put_sz, ret_sz.
      eapply sz_weak; [apply (T v _ d); [exact D| |exact V]|cbv beta; auto].
      destruct Sq as [S1 S2]. split; [exact S1|]. intros g w [I|I]; [injection I as <- <-; exact V|exact (S2 _ _ I)]. }
  clearbody x.
  destruct x as [fl|].
  - destruct (canon fs fl) as [ff|]; [|apply sz_bind; lf]. apply sz_assoc, get_sz, sz_assoc, put_sz, ret_sz. eapply sz_weak; [apply G with (e := 0) (storing := Some ff); [exact S|reflexivity|reflexivity]|cbv beta; auto].
  - apply ret_sz. eapply sz_weak; [apply G with (e := 0) (storing := None); [exact S|reflexivity|reflexivity]|cbv beta; auto].
Qed.

(** ** The functions *)
Definition res (b : Z) (v : value) (q : pstate) (d : Z) : Prop := 1 <= d /\ st (b + d) q /\ small (b + d) v.
Definition res_ps (b : Z) (ps : list (str * value)) (par : option obj) (q : pstate) (d : Z) : Prop :=
  0 <= d /\ st (b + d) q /\ sps (b + d) ps /\ Z.of_nat (length ps) <= 2 ^ (b + d) /\ spar (b + d) par.
Definition res_vs (b : Z) (vs : list value) (q : pstate) (d : Z) : Prop :=
  0 <= d /\ st (b + d) q /\ svs (b + d) vs /\ Z.of_nat (length vs) <= 2 ^ (b + d).
Definition vals_of (l : list (value * N * N)) : list value := rev (map (fun x => fst (fst x)) l).
Definition SZ (n : nat) : Prop :=
  (forall ps l k d e f s b, 0 <= b -> st b s -> sps b ps -> sz (ct_parse_value fs lic n ps l k d e f) s (res b)) /\
  (forall ps d e vals ops s c, 0 <= c -> st c s -> sps c ps -> tower c (vals_of vals) ->
     sz (ct_parse_ops fs lic n ps d e vals ops) s (fun p q d => exists c', 0 <= c' /\ c' + Z.of_nat (length (snd p)) - Z.of_nat (length ops) <= c + d /\ 0 <= d /\
        (length ops <= length (snd p))%nat /\ st c' q /\ tower c' (vals_of (fst p)))) /\
  (forall ps d e op s b, 0 <= b -> st b s -> sps b ps -> sz (ct_parse_unary_op fs lic n ps d e op) s (res b)) /\
  (forall d s b, 0 <= b -> st b s -> sz (ct_parse_obj fs lic n d) s (res b)) /\
  (forall ps par d e s b, 0 <= b -> st b s -> sps b ps -> Z.of_nat (length ps) <= 2 ^ b -> spar b par ->
     sz (ct_pairs_loop fs lic n ps par d e) s (fun x q d => res_ps b (fst x) (snd x) q d)) /\
  (forall ps par d e s b, 0 <= b -> st b s -> sps b ps -> Z.of_nat (length ps) <= 2 ^ b -> spar b par ->
     sz (ct_parse_field_value_pair fs lic n ps par d e) s (fun x q d => res_ps b (snd (fst x)) (snd x) q d)) /\
  (forall ps d s b, 0 <= b -> st b s -> sps b ps -> sz (ct_parse_arr fs lic n ps d) s (res b)) /\
  (forall ps d vs t any s b, 0 <= b -> st b s -> sps b ps -> svs b vs -> Z.of_nat (length vs) <= 2 ^ b ->
     sz (ct_arr_loop fs lic n ps d vs t any) s (fun x q d => res_vs b (fst x) q d)) /\
  (forall ps d s b, 0 <= b -> st b s -> sps b ps -> sz (ct_parse_tup fs lic n ps d) s (res b)) /\
  (forall ps d vs s b, 0 <= b -> st b s -> sps b ps -> svs b vs -> Z.of_nat (length vs) <= 2 ^ b ->
     sz (ct_tup_loop fs lic n ps d vs) s (fun x q d => res_vs b x q d)) /\
  (forall ps l k d e s b, 0 <= b -> st b s -> sps b ps -> starts_name s -> sz (ct_parse_variable fs lic n ps l k d e) s (res b)) /\
  (forall ps d s b, 0 <= b -> st b s -> sps b ps -> sz (ct_parse_include fs lic n ps d) s (res b)).
Lemma sz_nofuel {A} s (Q : A -> pstate -> Z -> Prop) : sz (lift nofuel) s Q.
Proof. exact I. Qed.
Ltac kk := first [assumption | apply keep_refl | match goal with K : keep ?a ?b |- keep ?a _ => apply (keep_trans a b); [exact K|kk] end].
Ltac stt := match goal with
  | |- st ?b ?s => first [assumption
      | match goal with H : st ?a ?r |- _ => apply (st_up a b r s); [solve [kk]|lia|exact H] end]
  end.
Ltac sm := first [assumption
  | match goal with
    | H : small ?a ?v |- small ?b ?v => apply (small_mono a b v); [lia|exact H]
    | H : sps ?a ?v |- sps ?b ?v => apply (sps_mono a b v); [lia|exact H]
    | H : svs ?a ?v |- svs ?b ?v => apply (svs_mono a b v); [lia|exact H]
    | H : spar ?a ?v |- spar ?b ?v => apply (spar_mono a b v); [lia|exact H]
    | |- st _ _ => stt
    end
  | lia].
Lemma two_up a b n : 0 <= a <= b -> n <= 2 ^ a -> n <= 2 ^ b.
Proof. intros H N. pose proof (two_mono a b H). lia. Qed.
Lemma two_one a b n : 0 <= a -> a + 1 <= b -> n <= 2 ^ a -> n + 1 <= 2 ^ b.
Proof. intros A H N. pose proof (two_mono (a + 1) b). pose proof (two_pos a A). rewrite Z.pow_add_r in H0 by lia. lia. Qed.
Lemma SZ_all n : SZ n.
Proof.
  induction n as [|n (H1&H2&H3&H4&H5&H6&H7&H8&H9&H10&H11&H12)].
  { unfold SZ; repeat split; intros; apply sz_nofuel. }
  unfold SZ; repeat split; intros.
  - rewrite ct_parse_value_S. unc. apply sz_tick. apply sz_bind. lf.
    assert (G : forall (m : Mt value), sz m s (res b) ->
      sz (cbind m (fun res => if f then
        cbind (ct_parse_ops fs lic n ps d e [(res, l, k)] []) (fun x => match x with (vals, ops) =>
          cbind (lift (check_value_end e)) (fun _ => match vals with [] => lift panic | (val1, _, _) :: vals' => ct_eval_low_ops val1 vals' ops end) end)
        else lift (ret res))) s (fun v q d => res b v q (slen s - slen s + d))).
    { intros m Hm. apply sz_bind. eapply sz_weak; [exact Hm|]. cbv beta. intros v q d1 (D1 & S1 & V1). destruct f.
      - apply sz_bind. eapply sz_weak; [apply (H2 _ _ _ _ _ _ (b + d1)); [lia|exact S1|sm|cbn; repeat split; auto; lia]|].
        cbv beta. intros [vals ops] q2 d2 (c' & C0 & C1 & D2 & _ & S2 & T2). cbn [fst snd length] in *. apply sz_bind. lf.
        destruct vals as [|[[v1 l1] k1] vals]; [lf|]. unfold vals_of in T2. cbn [map rev fst] in T2. apply tower_stairs in T2 as (e0 & E0 & E1 & E2 & E3).
        rewrite map_length in E1.
        destruct ops as [|op ops].
        + assert (Eq : ct_eval_low_ops v1 vals [] = lift (ret v1)) by (destruct vals; reflexivity). rewrite Eq. lf. unfold res. cbn [length] in C1. split; [lia|]. split; sm.
        + cbn [length] in C1. eapply sz_weak; [apply (low_sz (op :: ops) v1 vals e0); [lia|sm|exact E3]|]. cbv beta. intros r3 q3 d3 (D3 & K3 & R3). unfold res.
          split; [lia|]. split; [|sm]. eapply st_keep; [exact K3|]. sm.
      - lf. unfold res. split; [lia|]. split; sm. }
    apply G. clear G.
    repeat match goal with |- sz (if ?c then _ else _) _ _ => let D := fresh "D" in destruct c eqn:D end.
    + lf. pose proof (str_takes _ _ _ J). apply (str_lit b) in J; auto. split; [lia|]. split; sm.
    + apply H4; auto.
    + apply H7; auto.
    + apply H9; auto.
    + apply H12; auto.
    + apply H3; auto.
    + apply H3; auto.
    + lf. pose proof (numeric_takes _ _ _ _ _ _ _ R (numeric_not_end _ D6) J). apply (numeric_lit b) in J; auto. split; [lia|]. split; sm.
    + apply H11; auto. eexists _, _. split; [eassumption|]. apply Bool.orb_true_iff in D7 as [D7|D7]; [eapply field_not_end; eauto|].
      apply N.eqb_eq in D7. subst. reflexivity.
    + lf.
  - match goal with T : tower _ _ |- _ => rename T into Tw0 end. rewrite ct_parse_ops_S. unc. apply sz_tick. apply sz_bind. lf.
    assert (Stop : sz (lift (ret (vals, ops))) s (fun p q d => exists c', 0 <= c' /\ c' + Z.of_nat (length (snd p)) - Z.of_nat (length ops) <= c + (slen s - slen s + d) /\ 0 <= slen s - slen s + d /\
        (length ops <= length (snd p))%nat /\ st c' q /\ tower c' (vals_of (fst p)))).
    { lf. exists c. cbn [fst snd]. repeat split; try lia; try apply H0; assumption. }
    destruct x as [ch|]; [|exact Stop]. destruct (s_rest s) as [|c0 r0] eqn:Rs; [discriminate|]. destruct (get_op ch) as [op|]; [|exact Stop].
    apply sz_bind. lf. apply next_takes in J; [|congruence]. apply sz_bind. lf. destruct x0 as [c1|]; [|z0; lf]. z0.
    apply sz_bind. eapply sz_weak; [apply (H1 _ _ _ _ _ _ _ c); auto; stt|]. cbv beta. intros v2 q2 d2 (D2 & S2 & V2).
    destruct (is_priority op).
    + unfold pop_back. destruct (rev vals) as [|[[v1 l1] k1] rv] eqn:Rv; [lf|]. z0. z0. z0. z0. z0.
      assert (Tw : tower c (v1 :: map (fun x => fst (fst x)) rv)).
      { unfold vals_of in Tw0. rewrite <- map_rev, Rv in Tw0. exact Tw0. }
      cbn [tower] in Tw. destruct Tw as (_ & T1 & T2).
      apply (binop_small (c + d2)) in J0; [|lia|sm|exact V2].
      eapply sz_weak; [apply (H2 _ _ _ _ _ _ (c + d2 + 1)); [lia|stt|sm|]|].
      * unfold vals_of. rewrite map_app, rev_app_distr. cbn [map rev fst app tower]. repeat split; [lia|exact J0|].
        rewrite <- map_rev, rev_involutive. eapply tower_mono; [|exact T2]. lia.
      * cbv beta. intros p q3 d3 (c' & C0 & C1 & D3 & Ln & S3 & T3). exists c'. repeat split; try lia; try apply S3; assumption.
    + eapply sz_weak; [apply (H2 _ _ _ _ _ _ (c + d2)); [lia|exact S2|sm|]|].
      * unfold vals_of. rewrite map_app, rev_app_distr. cbn [map rev fst app tower]. repeat split; [lia|exact V2|]. eapply tower_mono; [|exact Tw0]. lia.
      * cbv beta. intros p q3 d3 (c' & C0 & C1 & D3 & Ln & S3 & T3). rewrite app_length in *. cbn [length] in *. exists c'. repeat split; try lia; try apply S3; assumption.
  - rewrite ct_parse_unary_op_S. unc. apply sz_tick. apply sz_bind. lf. apply sz_bind. lf.
    assert (J' : slen q = slen s - 1) by (destruct op; eapply next_some; eauto). z0. z0. destruct x0; [|lf].
    apply sz_bind. eapply sz_weak; [apply (H1 _ _ _ _ _ _ _ b); auto; stt|]. cbv beta. intros v2 q2 d2 (D2 & S2 & V2). z0. z0.
    match goal with J : unary_op_on_value _ _ _ _ _ = _ |- _ => apply (unary_small (b + d2)) in J; auto end. split; [lia|]. split; sm.
  - rewrite ct_parse_obj_S. unc. z0. z0; [z0; lf|]. z0. z0. z0. destruct x0; cbn [negb]; [|z0; lf].
    apply sz_bind. eapply sz_weak; [apply (H5 _ _ _ _ _ b); auto; [stt|intros ? ? []|cbn; pose proof (two_pos b); lia|exact I]|].
    cbv beta. intros [ps par] q2 d2 (D2 & S2 & P2 & L2 & Pa2). cbn [fst snd] in *. apply sz_bind. lf. lf. match goal with J : new_obj _ _ _ = _ |- _ => unfold new_obj, bind, gen_id, ret in J; injection J as <- <- end.
    split; [lia|]. split; [sm|]. apply small_obj; [|sm|sm]. eapply two_up; [|exact L2]. lia.
  - rewrite ct_pairs_loop_S. unc. apply sz_tick, sz_bind. eapply sz_weak; [apply (H6 _ _ _ _ _ b); auto|].
    cbv beta. intros [[more ps'] par'] q2 d2 (D2 & S2 & P2 & L2 & Pa2). cbn [fst snd] in *. destruct more.
    + eapply sz_weak; [apply (H5 _ _ _ _ _ (b + d2)); auto; lia|]. cbv beta. intros [ps3 par3] q3 d3 (D3 & S3 & P3 & L3 & Pa3). cbn [fst snd] in *.
      unfold res_ps. rewrite Z.add_assoc. repeat split; auto; try lia; apply S3.
    + lf. unfold res_ps. cbn [fst snd]. split; [lia|]. split; [sm|]. split; [sm|]. split; [eapply two_up; [|exact L2]; lia|sm].
  - rewrite ct_parse_field_value_pair_S. unc. apply sz_tick. apply sz_bind. lf. destruct (_ && _)%bool.
    { apply sz_bind. lf. lf. unfold res_ps. cbn [fst snd]. split; [lia|]. split; [sm|]. split; [sm|]. split; [eapply two_up; [|eassumption]; lia|sm]. }
    destruct (is_end_delimiter _); [z0; lf|]. z0. z0. pose proof (field_takes _ _ _ _ _ J) as Ft. destruct x0 as [name ft].
    match goal with |- sz (cbind ?m ?f) ?q0 ?Q => set (tail := f); set (QQ := Q) end.
    assert (G : forall q1, keep q q1 -> slen q1 = slen q -> forall e0, e0 = 0 -> sz (tail tt) q1 (fun y q' d' => QQ y q' (e0 + d'))).
    { intros q1 K1 E1 e0 ->. unfold tail, QQ. cbv beta. z0. destruct x0; cbn [negb]; [|z0; lf]. z0.
      apply sz_bind. eapply sz_weak; [apply (H1 _ _ _ _ _ _ _ b); auto; stt|]. cbv beta. intros v2 q2 d2 (D2 & S2 & V2).
      match goal with |- sz (cbind ?m ?f) _ _ => set (tail2 := f) end.
      assert (G2 : forall ps' par' q3 e3, e3 = 0 -> st (b + d2) q3 -> sps (b + d2) ps' -> Z.of_nat (length ps') <= 2 ^ (b + d2) -> spar (b + d2) par' ->
        sz (tail2 (ps', par')) q3 (fun (y : bool * list (str * value) * option obj) q' d' => res_ps b (snd (fst y)) (snd y) q' (d2 + (e3 + d')))).
      { intros ps' par' qy ez -> S3 P3 Lz3 Pa3. unfold tail2. cbv beta iota. z0.
        assert (Fin : forall more q4, keep qy q4 -> slen q4 <= slen qy -> sz (lift (ret (more, ps', par'))) q4 (fun (y : bool * list (str * value) * option obj) q' d' => res_ps b (snd (fst y)) (snd y) q' (d2 + (0 + (slen qy - slen q4 + d'))))).
        { intros more qz Kz Lz4. lf. unfold res_ps. cbn [fst snd]. split; [lia|]. split; [sm|]. split; [sm|]. split; [eapply two_up; [|exact Lz3]; lia|sm]. }
        destruct x0; cbn [negb]; [apply Fin; auto|]. destruct e; [z0; lf|apply Fin; auto]. }
      clearbody tail2. clear tail QQ.
      assert (R2 : forall e2 (y : bool * list (str * value) * option obj) q' d', res_ps b (snd (fst y)) (snd y) q' (d2 + (0 + d')) -> d2 + d' <= e2 -> res_ps b (snd (fst y)) (snd y) q' e2).
      { intros e2 y q' d' (A & B & C & D & E) Le. unfold res_ps. rewrite Z.add_0_l in *. split; [lia|]. split; [eapply st_mono; [|exact B]; lia|]. split; [sm|].
        split; [eapply two_up; [|exact D]; lia|sm]. }
      destruct ft.
      - apply sz_assoc, sz_bind. unfold sz at 1, c_insert_global, lift, insert_global. unfold spent. cbn [fst snd m_reads sumZ].
        assert (Es : slen (set_globals q2 ((name, v2) :: s_globals q2)) = slen q2) by reflexivity. apply ret_sz. eapply sz_weak; [apply (G2 ps par _ 0 eq_refl)|cbv beta; intros y q' d' Y; eapply R2; [exact Y|]; lia].
        + destruct S2 as [S2a S2b]. split; [|exact S2b]. intros f w [I|I]; [injection I as <- <-; exact V2|eapply S2a; exact I].
        + sm.
        + eapply two_up; [|eassumption]. lia.
        + sm.
      - apply sz_assoc, sz_spare. destruct (get_obj v2) as [o|er] eqn:Go; [|apply sz_assoc; z0; z0; lf].
        apply ret_sz. eapply sz_weak; [apply (G2 ps (Some o) _ 0 eq_refl)|cbv beta; intros y q' d' Y; eapply R2; [exact Y|]; lia].
        + exact S2.
        + sm.
        + eapply two_up; [|eassumption]. lia.
        + cbn [spar]. destruct v2; try discriminate Go. injection Go as <-. exact V2.
      - apply ret_sz. eapply sz_weak; [apply (G2 (ps ++ [(name, v2)]) par _ 0 eq_refl)|cbv beta; intros y q' d' Y; eapply R2; [exact Y|]; lia].
        + exact S2.
        + intros f w I. apply in_app_or in I as [I|[I|[]]]; [eapply small_mono; [|eauto]; lia|injection I as <- <-; exact V2].
        + rewrite app_length, Nat2Z.inj_add. cbn [length]. eapply two_one; [| |eassumption]; lia.
        + sm. }
    clearbody tail.
    assert (G' : sz (cbind (c_ret tt) tail) q QQ) by (apply ret_sz; eapply sz_weak; [apply (G _ (keep_refl _) eq_refl 0 eq_refl)|cbv beta; auto]).
    destruct ft.
    + apply sz_assoc, sz_bind. unfold sz at 1, c_get_globals, lift, get_globals. unfold spent. cbn [fst snd m_reads sumZ].
      cbv beta. destruct (assoc name _); [apply sz_bind; lf|]. eapply sz_weak; [exact G'|]. cbv beta. intros y q' d'. match goal with |- QQ _ _ ?a -> QQ _ _ ?b' => replace b' with a by lia end. auto.
    + destruct par; [apply sz_bind; lf|exact G'].
    + destruct (existsb _ _); [apply sz_bind; lf|exact G'].
  - rewrite ct_parse_arr_S. unc. z0. z0; [z0; lf|]. z0. z0.
    apply sz_bind. eapply sz_weak; [apply (H8 _ _ _ _ _ _ b); auto; [stt|intros ? []|cbn; pose proof (two_pos b); lia]|].
    cbv beta. intros [vs t] q2 d2 (D2 & S2 & P2 & L2). cbn [fst snd] in *. apply sz_bind. lf. lf. match goal with J : new_arr _ _ _ = _ |- _ => unfold new_arr, bind, gen_id, ret in J; injection J as <- <- end.
    split; [lia|]. split; [sm|]. apply small_arr; [|sm]. eapply two_up; [|exact L2]. lia.
  - rewrite ct_arr_loop_S. unc. z0. z0. destruct x; cbn [negb]; [|z0; lf]. z0. destruct (_ =? _)%N.
    { z0. lf. unfold res_vs. cbn [fst]. split; [lia|]. split; [sm|]. split; [sm|]. eapply two_up; [|eassumption]; lia. }
    destruct (is_end_delimiter _); [z0; lf|]. z0. apply sz_bind. eapply sz_weak; [apply (H1 _ _ _ _ _ _ _ b); auto; stt|]. cbv beta. intros v2 q2 d2 (D2 & S2 & V2).
    apply sz_spare. destruct (arr_check_step _ _ _) as [[t' any']|[t1 t2]]; [|lf].
    eapply sz_weak; [apply (H8 _ _ _ _ _ _ (b + d2)); [lia|exact S2|sm| |]|].
    + intros w I. apply in_app_or in I as [I|[<-|[]]]; [|exact V2]. eapply small_mono; [|eauto]. lia.
    + rewrite app_length, Nat2Z.inj_add. cbn [length]. eapply two_one; [| |eassumption]; lia.
    + cbv beta. intros [vs3 t3] q3 d3 (D3 & S3 & P3 & L3). unfold res_vs. cbn [fst] in *. split; [lia|]. split; [sm|]. split; [sm|]. eapply two_up; [|exact L3]. lia.
  - rewrite ct_parse_tup_S. unc. z0. z0; [z0; lf|]. z0. z0.
    apply sz_bind. eapply sz_weak; [apply (H10 _ _ _ _ b); auto; [stt|intros ? []|cbn; pose proof (two_pos b); lia]|].
    cbv beta. intros vs q2 d2 (D2 & S2 & P2 & L2). apply sz_assoc, sz_spare, sz_bind. lf. lf. match goal with J : new_tup _ _ = _ |- _ => unfold new_tup, bind, gen_id, ret in J; injection J as <- <- end.
    split; [lia|]. split; [sm|]. apply small_tup; [|sm]. eapply two_up; [|exact L2]. lia.
  - rewrite ct_tup_loop_S. unc. z0. z0. destruct x; cbn [negb]; [|z0; lf]. z0. destruct (_ =? _)%N.
    { z0. lf. unfold res_vs. split; [lia|]. split; [sm|]. split; [sm|]. eapply two_up; [|eassumption]; lia. }
    destruct (is_end_delimiter _); [z0; lf|]. z0. apply sz_bind. eapply sz_weak; [apply (H1 _ _ _ _ _ _ _ b); auto; stt|]. cbv beta. intros v2 q2 d2 (D2 & S2 & V2).
    eapply sz_weak; [apply (H10 _ _ _ _ (b + d2)); [lia|exact S2|sm| |]|].
    + intros w I. apply in_app_or in I as [I|[<-|[]]]; [|exact V2]. eapply small_mono; [|eauto]. lia.
    + rewrite app_length, Nat2Z.inj_add. cbn [length]. eapply two_one; [| |eassumption]; lia.
    + cbv beta. intros vs3 q3 d3 (D3 & S3 & P3 & L3). unfold res_vs. split; [lia|]. split; [sm|]. split; [sm|]. eapply two_up; [|exact L3]. lia.
  - match goal with H : starts_name _ |- _ => rename H into Hn end. rewrite ct_parse_variable_S. unc. cbv zeta. apply sz_tick. apply sz_bind. lf.
    match goal with |- sz (cbind ?m ?f) ?q0 ?Q => set (tail := f); set (QQ := Q) end.
    assert (G : forall var0 q1, keep s q1 -> forall e0, e0 = slen s - slen q1 -> 0 <= e0 -> (1 <= e0 \/ starts_name q1) -> sz (tail var0) q1 (fun y q' d' => QQ y q' (e0 + d'))).
    { intros var0 q1 K1 e0 E0 E1 E2. unfold tail, QQ. cbv beta. clear tail QQ. apply sz_bind. apply sz_lift; [shrs|kps|]. intros z qv Jv Lv Kv. cbv beta.
      assert (Ev : match z with VS_bad _ => True | _ => 1 <= e0 + (slen q1 - slen qv) end).
      { destruct E2 as [E2|E2]; [destruct z; auto; lia|]. pose proof (vscan_takes _ _ _ _ E2 Jv) as Tk. destruct z; auto; lia. }
      assert (G2 : 1 <= e0 + (slen q1 - slen qv) -> forall var dot dg q2, keep qv q2 -> slen q2 = slen qv -> (dot = true -> dg = false -> starts_name q2) -> forall e3, e3 = 0 ->
        sz (cbind (lift (lookup_variable ps var (x =? c_at)%N l k)) (fun value =>
          if (dot : bool) then
            match value with
            | VArr a => cbind (lift getpos) (fun p => match p with (line, col) => cbind (ct_parse_value fs lic n ps line col (d + 1) e false) (fun idx => cbind (c_spare (levels idx)) (fun _ => lift (index_by (arr_get a) idx line col))) end)
            | VTup t => cbind (lift getpos) (fun p => match p with (line, col) => cbind (ct_parse_value fs lic n ps line col (d + 1) e false) (fun idx => cbind (c_spare (levels idx)) (fun _ => lift (index_by (tup_get t) idx line col))) end)
            | VObj o => cbind (lift getpos) (fun p => match p with (line, col) => if (dg : bool) then lift (fail (InvalidValueChar c_at line col)) else ct_parse_variable fs lic n (obj_pairs o) line col (d + 1) e end)
            | _ => lift (fail (InvalidDot (get_type value) l k))
            end
          else lift (ret value))) q2 (fun y q' d' => res b y q' (slen s - slen s + (e0 + (slen q1 - slen qv + (e3 + d')))))).
      { intros Ev1 var dot dg q2 K2 Lq2 N2 e3 ->. apply sz_bind. lf.
        match goal with J : lookup_variable _ _ _ _ _ _ = _ |- _ => pose proof (lookup_same _ _ _ _ _ _ _ _ J) as Ls; apply (lookup_small b) in J; [|assumption|assumption|] end.
        2: { match goal with H : st b s |- _ => assert (Hs : st b q2) by stt end. apply Hs. }
        destruct dot.
        2: { lf. split; [lia|]. split; sm. }
        destruct x0; try (lf; fail).
        - z0. apply sz_bind. eapply sz_weak; [apply (H1 _ _ _ _ _ _ _ b); auto; stt|]. cbv beta. intros v2 qw d2 (D2 & S2 & V2). apply sz_spare. lf.
          match goal with J : index_by _ _ _ _ _ = _, A : small b (VArr _) |- _ => apply arr_kids in A as [_ A]; apply (index_small b) with (vs := arr_values a) in J; [|exact A|apply arr_get_in] end. split; [lia|]. split; sm.
        - z0. apply sz_bind. eapply sz_weak; [apply (H1 _ _ _ _ _ _ _ b); auto; stt|]. cbv beta. intros v2 qw d2 (D2 & S2 & V2). apply sz_spare. lf.
          match goal with J : index_by _ _ _ _ _ = _, A : small b (VTup _) |- _ => apply tup_kids in A as [_ A]; eapply (index_small b) in J; [|exact A|apply tup_get_in] end. split; [lia|]. split; sm.
        - z0. destruct dg; [lf|]. eapply sz_weak; [apply (H11 _ _ _ _ _ _ b); auto; [stt|apply obj_kids; assumption|]|].
          + destruct (N2 eq_refl eq_refl) as (cn & rn & Rn & Vn). exists cn, rn. split; [congruence|exact Vn].
          + cbv beta. intros y q' d' (D' & S' & V'). split; [lia|]. split; sm. }
      destruct z as [v|v|c0].
      - apply ret_sz. eapply sz_weak; [apply (G2 Ev v false false qv (keep_refl _) eq_refl ltac:(discriminate) 0 eq_refl)|cbv beta; auto].
      - apply sz_assoc. apply sz_bind. lf. destruct x0 as [c0|]; [|apply sz_assoc, sz_bind; lf; apply sz_bind; lf].
        destruct (s_rest qv) as [|c9 r9] eqn:Rv; [discriminate|]. match goal with E : Some _ = Some _ |- _ => injection E as -> end.
        match goal with |- sz (cbind (if _ then _ else _) ?f) ?q0 ?Q => assert (G3 : forall dg, (dg = false -> is_value_end_char c9 = false) -> sz (cbind (lift (ret (v, true, dg))) f) q0 Q) end.
        2: { destruct (c9 =? c_at)%N; [exact (G3 true ltac:(discriminate))|]. destruct (_ || _)%bool eqn:D9; [|apply sz_assoc, sz_bind; lf; apply sz_bind; lf].
             apply (G3 false). intros _. apply Bool.orb_true_iff in D9 as [D9|D9]; [eapply field_not_end; eauto|apply numeric_not_end; auto]. }
        intros dg N9. apply ret_sz. eapply sz_weak; [apply (G2 Ev v true dg qv (keep_refl _) eq_refl) with (e3 := 0); [|reflexivity]|].
        + intros _ E9. exists c9, r9. auto.
        + cbv beta. intros y q' d'. match goal with |- res _ _ _ ?a -> res _ _ _ ?b' => replace b' with a by lia end. auto.
      - apply sz_assoc. z0. apply sz_bind. lf. }
    clearbody tail. destruct (x =? c_at)%N.
    + apply sz_assoc. z0. apply ret_sz. eapply sz_weak; [apply (G [x0] q) with (e0 := slen s - slen q); [kk|reflexivity|lia|left]|].
      * lia.
      * cbv beta. auto.
    + apply ret_sz. eapply sz_weak; [apply (G [] s (keep_refl _) 0); [lia|lia|auto]|cbv beta; auto].
  - rewrite ct_parse_include_S. unc. z0. z0; [z0; lf|]. z0. z0. z0. destruct x0; cbn [negb]; [|z0; lf]. z0.
    apply sz_bind. eapply sz_weak; [apply (H1 _ _ _ _ _ _ _ b); auto; stt|]. cbv beta. intros v2 q2 d2 (D2 & S2 & V2). z0. z0. z0.
    match goal with |- sz (cbind _ ?f) ?q0 ?Q => set (tail := f); set (QQ := Q) end.
    assert (G : forall ity v l k q3 e3, 1 <= e3 -> st (b + e3) q3 -> small (b + e3) v -> sz (tail (ity, v, l, k)) q3 (fun y q' d' => res b y q' (e3 + d'))).
    { intros ity v l k q3 e3 E3 S3 V3. unfold tail. cbv beta iota. clear tail QQ. z0.
      match goal with |- sz (if negb ?b then _ else _) _ _ => destruct b; cbn [negb] end; [|z0; lf]. z0. destruct (negb _); [z0; z0; lf|].
      destruct v; try (z0; lf; fail). eapply sz_weak; [apply (finish_sz _ _ _ _ _ (b + e3)); [lia|stt]|]. cbv beta. intros y q' d' (D' & S' & V'). split; [lia|]. split; sm. }
    clearbody tail. destruct x0 as [ity|u0].
    + apply sz_assoc. z0. match goal with |- sz (cbind (if negb ?b then _ else _) _) _ _ => destruct b; cbn [negb] end; [|apply sz_assoc, sz_bind; lf; apply sz_bind; lf].
      apply sz_assoc. z0. apply sz_assoc. apply sz_bind. eapply sz_weak; [apply (H1 _ _ _ _ _ _ _ (b + d2)); [lia|stt|sm]|]. cbv beta. intros v4 q4 d4 (D4 & S4 & V4).
      apply ret_sz. eapply sz_weak; [apply (G ity v4 _ _ q4 (d2 + d4)); [lia|sm|sm]|]. unfold QQ. cbv beta. intros y q' d' (D' & S' & V'). split; [lia|]. split; sm.
    + apply ret_sz. eapply sz_weak; [apply (G IObj v2 _ _ q1 d2); [lia|stt|sm]|]. unfold QQ. cbv beta. intros y q' d' (D' & S' & V'). split; [lia|]. split; sm.
Qed.
Lemma obj_stream_sz n s b : 0 <= b -> st b s -> sz (ct_parse_obj_stream fs lic n) s (fun o q d => 0 <= d /\ st (b + d) q /\ small (b + d) (VObj o)).
Proof.
  intros B S. destruct (SZ_all n) as (_&_&_&_&H5&_). unfold ct_parse_obj_stream. unc. z0. z0. match goal with |- sz (if negb ?b then _ else _) _ _ => destruct b; cbn [negb] end.
  - apply sz_bind. eapply sz_weak; [apply (H5 _ _ _ _ _ b); auto; [stt|intros ? ? []|cbn; pose proof (two_pos b); lia|exact I]|].
    cbv beta. intros [ps par] q2 d2 (D2 & S2 & P2 & L2 & Pa2). cbn [fst snd] in *. lf. match goal with J : new_obj _ _ _ = _ |- _ => unfold new_obj, bind, gen_id, ret in J; injection J as <- <- end.
    split; [lia|]. split; [sm|]. apply small_obj; [|sm|sm]. eapply two_up; [|exact L2]. lia.
  - lf. match goal with J : new_obj _ _ _ = _ |- _ => unfold new_obj, bind, gen_id, ret in J; injection J as <- <- end.
    split; [lia|]. split; [sm|]. apply small_obj; [cbn [length]; apply Z.pow_nonneg; lia|intros ? ? []|exact I].
Qed.
Lemma arr_stream_sz n s b : 0 <= b -> st b s -> sz (ct_parse_arr_stream fs lic n) s (fun o q d => 0 <= d /\ st (b + d) q /\ small (b + d) (VArr o)).
Proof.
  assert (H : forall n vs t any s b, 0 <= b -> st b s -> svs b vs -> Z.of_nat (length vs) <= 2 ^ b -> sz (ct_arr_file_loop fs lic n vs t any) s (fun x q d => res_vs b (fst x) q d)).
  { clear n s b. induction n as [|n IH]; intros vs t any s b B S V L; [apply sz_nofuel|]. destruct (SZ_all n) as (H1&_). rewrite ct_arr_file_loop_S. unc. z0. z0.
    match goal with |- sz (if negb ?b then _ else _) _ _ => destruct b; cbn [negb] end.
    2: { lf. unfold res_vs. cbn [fst]. split; [lia|]. split; [sm|]. split; [sm|]. eapply two_up; [|exact L]; lia. }
    z0. apply sz_bind. eapply sz_weak; [apply (H1 _ _ _ _ _ _ _ b); auto; [stt|intros ? ? []]|]. cbv beta. intros v2 q2 d2 (D2 & S2 & V2).
    apply sz_spare. destruct (arr_check_step _ _ _) as [[t' any']|[t1 t2]]; [|lf].
    eapply sz_weak; [apply (IH _ _ _ _ (b + d2)); [lia|exact S2| |]|].
    + intros w I. apply in_app_or in I as [I|[<-|[]]]; [|exact V2]. eapply small_mono; [|eauto]. lia.
    + rewrite app_length, Nat2Z.inj_add. cbn [length]. eapply two_one; [| |eassumption]; lia.
    + cbv beta. intros [vs3 t3] q3 d3 (D3 & S3 & P3 & L3). unfold res_vs. cbn [fst] in *. split; [lia|]. split; [sm|]. split; [sm|]. eapply two_up; [|exact L3]. lia. }
  intros B S. unfold ct_parse_arr_stream. unc. apply sz_bind. eapply sz_weak; [apply (H _ _ _ _ _ b); auto; [intros ? []|apply Z.pow_nonneg; lia]|].
  cbv beta. intros [vs t] q2 d2 (D2 & S2 & P2 & L2). cbn [fst snd] in *. lf. match goal with J : new_arr _ _ _ = _ |- _ => unfold new_arr, bind, gen_id, ret in J; injection J as <- <- end.
  split; [lia|]. split; [sm|]. apply small_arr; [|sm]. eapply two_up; [|exact L2]. lia.
Qed.
Lemma tup_stream_sz n s b : 0 <= b -> st b s -> sz (ct_parse_tup_stream fs lic n) s (fun o q d => 0 <= d /\ st (b + d) q /\ small (b + d) (VTup o)).
Proof.
  assert (H : forall n vs s b, 0 <= b -> st b s -> svs b vs -> Z.of_nat (length vs) <= 2 ^ b -> sz (ct_tup_file_loop fs lic n vs) s (fun x q d => res_vs b x q d)).
  { clear n s b. induction n as [|n IH]; intros vs s b B S V L; [apply sz_nofuel|]. destruct (SZ_all n) as (H1&_). rewrite ct_tup_file_loop_S. unc. z0. z0.
    match goal with |- sz (if negb ?b then _ else _) _ _ => destruct b; cbn [negb] end.
    2: { lf. unfold res_vs. split; [lia|]. split; [sm|]. split; [sm|]. eapply two_up; [|exact L]; lia. }
    z0. apply sz_bind. eapply sz_weak; [apply (H1 _ _ _ _ _ _ _ b); auto; [stt|intros ? ? []]|]. cbv beta. intros v2 q2 d2 (D2 & S2 & V2).
    eapply sz_weak; [apply (IH _ _ (b + d2)); [lia|exact S2| |]|].
    + intros w I. apply in_app_or in I as [I|[<-|[]]]; [|exact V2]. eapply small_mono; [|eauto]. lia.
    + rewrite app_length, Nat2Z.inj_add. cbn [length]. eapply two_one; [| |eassumption]; lia.
    + cbv beta. intros vs3 q3 d3 (D3 & S3 & P3 & L3). unfold res_vs. split; [lia|]. split; [sm|]. split; [sm|]. eapply two_up; [|exact L3]. lia. }
  intros B S. unfold ct_parse_tup_stream. unc. apply sz_bind. eapply sz_weak; [apply (H _ _ _ b); auto; [intros ? []|apply Z.pow_nonneg; lia]|].
  cbv beta. intros vs q2 d2 (D2 & S2 & P2 & L2). apply sz_spare. lf. match goal with J : new_tup _ _ = _ |- _ => unfold new_tup, bind, gen_id, ret in J; injection J as <- <- end.
  split; [lia|]. split; [sm|]. apply small_tup; [|sm]. eapply two_up; [|exact L2]. lia.
Qed.
End Files.
End Sz.

Section Whole.
Context `{U : Unicode}.
Variable fs : fsys.
Definition Wc (i : nat) : Z := Z.of_nat (file_size fs i).
Lemma Wc0 i : 0 <= Wc i.
Proof. unfold Wc. lia. Qed.
Lemma run_sz {A} (c : Mt A) (h : A -> value) file t sh b : 0 <= b -> sps b (sh_vals sh) ->
  (forall s, st b s -> sz Wc c s (fun o q d => 0 <= d /\ st (b + d) q /\ small (b + d) (h o))) ->
  match ct_run_stream c file t sh with (Ok x, sh', u) =>
    sps (b + (Z.of_nat (length t) + sumZ Wc (m_reads u))) (sh_vals sh') /\ small (b + (Z.of_nat (length t) + sumZ Wc (m_reads u))) (h x) | _ => True end.
Proof.
  intros B V H. specialize (H (mkst file t 1 1 [] sh)). unfold ct_run_stream, sz in *. destruct (c _) as [[[x|k| |] q] u]; auto.
  destruct H as (D & [S1 S2] & X); [split; [intros ? ? []|exact V]|]. unfold spent, slen in *. cbn [s_rest] in *.
  split; [eapply sps_mono; [|exact S2]|eapply small_mono; [|exact X]]; lia.
Qed.
Lemma opening_sz p sh t sh' : open_file fs p sh = (inl t, sh') -> sumZ Wc (m_reads (opening fs p)) = Z.of_nat (length t) /\ sh_vals sh' = sh_vals sh.
Proof.
  unfold open_file, opening. destruct (fs_entry fs p) as [[i e]|] eqn:E; [|discriminate].
  assert (N : nth_error (fs_files fs) i = Some e).
  { revert E. unfold fs_entry. destruct (path_parent p); [|discriminate]. destruct (fs_resolve fs p) as [j|]; [|discriminate].
    destruct (nth_error (fs_files fs) j) eqn:F; [|discriminate]. intros K; inversion K; subst. exact F. }
  cbn [m_reads sumZ]. unfold Wc, file_size. rewrite N. destruct (fe_read e); [|discriminate]. intros K. injection K as -> <-. split; [lia|reflexivity].
Qed.
Lemma load_sz k : forall ty p sh b, 0 <= b -> sps b (sh_vals sh) ->
  match ct_load_file fs k ty p sh with (Ok v, sh', u) => 0 <= sumZ Wc (m_reads u) /\ sps (b + sumZ Wc (m_reads u)) (sh_vals sh') /\ small (b + sumZ Wc (m_reads u)) v | _ => True end.
Proof.
  induction k as [|k IH]; intros ty p sh b B V; [exact I|]. cbn [ct_load_file].
  destruct (open_file fs p sh) as [[t|e] sh'] eqn:O; [|exact I]. apply opening_sz in O as [O1 O2].
  assert (R : forall A (c : Mt A) (h : A -> value), (forall s, st b s -> sz Wc c s (fun o q d => 0 <= d /\ st (b + d) q /\ small (b + d) (h o))) ->
    match (let '(r, u) := (let '(o, sh, u) := ct_run_stream c (Some p) t sh' in (omap h o, sh, u)) in (done_file fs p r, m_add (opening fs p) u)) with
    | (Ok v, sh', u) => 0 <= sumZ Wc (m_reads u) /\ sps (b + sumZ Wc (m_reads u)) (sh_vals sh') /\ small (b + sumZ Wc (m_reads u)) v | _ => True end).
  { intros A c h Hc. rewrite <- O2 in V. pose proof (run_sz c h (Some p) t sh' b B V Hc) as R. destruct (ct_run_stream c (Some p) t sh') as [[[x|?| |] sh2] u]; auto.
    cbn [omap done_file m_add m_reads log_ev sh_vals]. rewrite sumZ_app, O1. split; [|exact R]. pose proof (sumW0 Wc Wc0 (m_reads u)). lia. }
  destruct ty; [apply R; intros; apply obj_stream_sz; auto using Wc0; intros; apply IH; assumption| |apply R; intros; apply arr_stream_sz; auto using Wc0; intros; apply IH; assumption|apply R; intros; apply tup_stream_sz; auto using Wc0; intros; apply IH; assumption].
  change (0 <= sumZ Wc (m_reads (opening fs p) ++ []) /\ sps (b + sumZ Wc (m_reads (opening fs p) ++ [])) (sh_vals sh') /\ small (b + sumZ Wc (m_reads (opening fs p) ++ [])) (VStr t)).
  rewrite app_nil_r, O1, O2. split; [lia|]. split; [eapply sps_mono; [|exact V]; lia|].
  intros w P. inversion P; subst. cbn [within_level]. pose proof (Z.pow_gt_lin_r 2 (b + Z.of_nat (length t))). lia.
Qed.
Lemma str_sz g t o sh u : metered_str fs g t = (Ok o, sh, u) -> small (Z.of_nat (length t) + sumZ Wc (m_reads u)) (VObj o).
Proof.
  intros E. pose proof (run_sz (ct_parse_obj_stream fs (ct_load_file fs (inc_fuel fs)) (stream_fuel t)) VObj None t (init_sh g) 0) as R.
  unfold metered_str in E. rewrite E in R. apply R; [lia|intros ? ? []|]. intros s S. apply obj_stream_sz; auto using Wc0; try lia. intros. apply load_sz; auto.
Qed.
Lemma file_sz g p o sh u : metered_file fs g p = (Ok o, sh, u) -> small (sumZ Wc (m_reads u)) (VObj o).
Proof.
  unfold metered_file. destruct (open_file fs p (init_sh g)) as [[t|e] sh1] eqn:O; [|discriminate]. apply opening_sz in O as [O1 O2].
  pose proof (run_sz (ct_parse_obj_stream fs (ct_load_file fs (inc_fuel fs)) (stream_fuel t)) VObj (Some p) t sh1 0) as R.
  destruct (ct_run_stream _ _ _ _) as [[r sh2] u2]. intros K. inversion K; subst. cbn [m_add m_reads]. rewrite sumZ_app, O1.
  apply R; [lia|rewrite O2; intros ? ? []|]. intros s S. apply obj_stream_sz; auto using Wc0; try lia. intros. apply load_sz; auto.
Qed.
End Whole.
