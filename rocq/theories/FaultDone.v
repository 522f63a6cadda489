(** * FaultDone: whatever error the parser ends with is a fault of the text in the sense of Spot.v, or the error of
    a file that the text includes. *)
From Verif Require Export FaultBlame Complete.
From Coq Require String.
Import String.StringSyntax.
Open Scope N_scope.

(** ** Names *)
Lemma var_fname `{U : Unicode} f : var_name false f -> fname f.
Proof. intros (c & r & -> & H & _). exists c, r. split; auto. apply letter_not_digit. exact H. Qed.
Lemma nmv_okv `{U : Unicode} v : nmv v -> okv v.
Proof. intros H o P. eapply Forall_impl; [|exact (H o P)]. apply var_fname. Qed.
Lemma nmps_okps `{U : Unicode} ps : nmps ps -> okps ps.
Proof. intros H. eapply Forall_impl; [|exact H]. intros a. apply nmv_okv. Qed.
Lemma nmfs_okps `{U : Unicode} ps : nmfs ps -> okps ps.
Proof. intros [_ H]. apply nmps_okps. exact H. Qed.
Lemma okp_okf `{U : Unicode} r : okp r -> okf r.
Proof.
  intros [[H1 H2] H3]. split; [apply nmps_okps; auto|]. split; [eapply Forall_impl; [|exact H1]; apply var_fname|].
  intros o E. apply nmv_okv; auto.
Qed.

Section Done.
Context `{U : Unicode}.
Variable fs : fsys.
Variable file : option str.
Notation li := (load_file fs (inc_fuel fs)).
Notation inc := (include_meaning fs file).
Notation EA := (ev_atom inc limit64).
Notation EE := (ev_expr inc limit64).
Notation good := (good file).
Notation er k := (mkperr file k).
Local Existing Instance noexc.
Variable L : inc_ty -> str -> shared -> outcome value * shared.
Hypothesis HL : forall ty p sh, fst (L ty p sh) = NoFuel \/ li ty p sh = L ty p sh.
Variable root : inc_ty.
Variable x0 : est.
Variable T : str.
Notation spot := (spot fs file root x0).

(** What an error must be. *)
Definition blamed (e : perr) : Prop :=
  (exists k, e = er k /\ faulty fs file root x0 T k) \/
  (exists ty f x full, asks fs file root x0 T ty f x /\ fresh_file fs file f x full /\ wfvals (snd x) /\
     fst (L ty (inc_path file f) (asked fs file full x)) = Err e).
Definition eb {A} (m : M A) (s : pstate) : Prop := match m s with (Err e, _) => blamed e | _ => True end.
Lemma eb_bind {A B} (m : M A) (f : A -> M B) s : eb m s -> (forall a s', m s = (Ok a, s') -> eb (f a) s') -> eb (bind m f) s.
Proof. unfold eb, bind. destruct (m s) as [[a|e| |] s'] eqn:E; auto. intros _ H. apply H; auto. Qed.
Lemma eb_ok {A B} (m : M A) (f : A -> M B) s a s' : m s = (Ok a, s') -> eb (f a) s' -> eb (bind m f) s.
Proof. unfold eb, bind. intros ->. auto. Qed.
Lemma eb_assoc {A B C} (m : M A) (f : A -> M B) (g : B -> M C) s :
  eb (bind m (fun a => bind (f a) g)) s -> eb (bind (bind m f) g) s.
Proof. unfold eb, bind. destruct (m s) as [[a|e'| |] s']; auto. Qed.
Lemma eb_at {A} (m m' : M A) s s' : m s = m' s' -> eb m' s' -> eb m s.
Proof. unfold eb. intros ->. auto. Qed.
Lemma eb_ret {A} (a : A) s : eb (ret a) s.
Proof. exact I. Qed.
Lemma eb_retb {A C} (a : A) s (f : A -> M C) : eb (f a) s -> eb (bind (ret a) f) s.
Proof. apply eb_ok. reflexivity. Qed.
Lemma eb_fine {A} (m : M A) s : (forall e s', m s <> (Err e, s')) -> eb m s.
Proof. unfold eb. intros H. destruct (m s) as [[a|e| |] s'] eqn:E; auto. exfalso. eapply H; eauto. Qed.
Lemma eb_mb {A} e (m : M A) s : mb e m s -> blamed e -> eb m s.
Proof. unfold mb, eb. destruct (m s) as [[a|e'| |] s']; auto. intros ->. auto. Qed.

(** The reader is at [pl], in front of [R]. *)
Definition nmplace (pl : place) : Prop :=
  match pl with
  | InItems ps par _ close => okp (ps, par) /\ (close = None \/ close = Some c_rbrace)
  | InArr ps _ els => nmfs ps /\ Forall nmv els /\ lub (map get_type els) <> None
  | InTup ps _ els => nmfs ps /\ Forall nmv els
  | ArrFile els => Forall nmv els /\ lub (map get_type els) <> None
  | TupFile els => Forall nmv els
  | InInc ps _ _ | AtValue _ ps _ _ | AtName _ ps _ _ => nmfs ps
  | InChain ps _ _ _ terms cur _ => nmfs ps /\ Forall nmv (map (fun t => fst (fst t)) terms) /\ nmv cur
  end.
Definition here (pl : place) (x : est) (P R : str) (s : pstate) : Prop :=
  spot pl x P /\ T = P ++ R /\ fits pl R /\ good P R x s /\ nmps (fst x) /\ nmplace pl.
Lemma here_good pl x P R s : here pl x P R s -> good P R x s.
Proof. intros (_ & _ & _ & G & _). exact G. Qed.
Lemma good_inv P R x s : good P R x s -> nmps (fst x) -> inv s.
Proof. intros (_ & X & _ & [_ W] & _) N. rewrite <- X in N. split; auto. Qed.
Lemma here_fault pl x P R s k : here pl x P R s -> fault fs file pl x P R k -> blamed (er k).
Proof. intros (S & E & F & _) H. left. exists k. split; auto. exists pl, x, P, R. auto. Qed.
Lemma eb_failed {A} k s : s_file s = file -> blamed (er k) -> eb (@fail A k) s.
Proof. unfold eb, fail. intros ->. auto. Qed.
Lemma good_file P R x s : good P R x s -> s_file s = file.
Proof. intros (_ & _ & F & _). exact F. Qed.
Lemma eb_line {A} k P R x s : good P R x s -> k = UnexpectedEnd (line_of P) -> blamed (er k) ->
  eb (let* l := getline in @fail A (UnexpectedEnd l)) s.
Proof. intros G -> B. eapply eb_mb; [eapply mb_line; [exact G|reflexivity]|exact B]. Qed.
Lemma eb_pos {A} (f : N -> N -> pkind) k P R x s : good P R x s -> k = f (line_of P) (col_of P) -> blamed (er k) ->
  eb (let* '(l, q) := getpos in @fail A (f l q)) s.
Proof. intros G -> B. eapply eb_mb; [eapply (mb_pos file f); [exact G|reflexivity]|exact B]. Qed.
Lemma eb_back {A} (f : N -> N -> pkind) k P c R x s : good (P ++ [c]) R x s -> k = f (char_line P c) (char_col P c) -> blamed (er k) ->
  eb (let* l := getline in let* q := col_minus_1 in @fail A (f l q)) s.
Proof. intros G -> B. eapply eb_mb; [eapply (mb_back file f); [exact G|reflexivity]|exact B]. Qed.

(** *** Steps *)
Lemma eb_peek {C} c r P x s (f : option char -> M C) : good P (c :: r) x s -> eb (f (Some c)) s -> eb (bind peek f) s.
Proof. intros G. apply eb_ok with (s' := s). unfold peek. destruct G as [-> _]. reflexivity. Qed.
Lemma eb_peek_nil {C} P x s (f : option char -> M C) : good P [] x s -> eb (f None) s -> eb (bind peek f) s.
Proof. intros G. apply eb_ok with (s' := s). unfold peek. destruct G as [-> _]. reflexivity. Qed.
Lemma eb_peek_unwrap {C} c r P x s (f : char -> M C) : good P (c :: r) x s -> eb (f c) s -> eb (bind peek_unwrap f) s.
Proof. intros G. apply eb_ok with (s' := s). unfold peek_unwrap, bind, peek. destruct G as [-> _]. reflexivity. Qed.
Lemma eb_next {C} c r P x s (f : option char -> M C) : good P (c :: r) x s ->
  (forall s', good (P ++ [c]) r x s' -> eb (f (Some c)) s') -> eb (bind next f) s.
Proof. intros G H. destruct (good_next _ _ _ _ _ _ G) as [E G']. eapply eb_ok; [exact E|]. auto. Qed.
Lemma eb_next_unwrap {C} c r P x s (f : char -> M C) : good P (c :: r) x s ->
  (forall s', good (P ++ [c]) r x s' -> eb (f c) s') -> eb (bind next_unwrap f) s.
Proof.
  intros G H. destruct (good_next _ _ _ _ _ _ G) as [E G']. apply eb_ok with (a := c) (s' := adv1 s c r); auto.
  unfold next_unwrap, bind. rewrite E. reflexivity.
Qed.
Lemma eb_getpos {C} R P x s (f : N * N -> M C) : good P R x s -> eb (f (line_of P, col_of P)) s -> eb (bind getpos f) s.
Proof. intros (_ & _ & _ & _ & Hl & K) H. eapply eb_ok; [reflexivity|]. rewrite Hl, K. exact H. Qed.
Lemma eb_assert {C} b s (f : unit -> M C) : b = true -> eb (f tt) s -> eb (bind (assert_ b) f) s.
Proof. intros ->. apply eb_ok. reflexivity. Qed.
Lemma eb_find {C} P R x s (f : bool -> M C) : good P R x s ->
  (forall w c r s', R = w ++ c :: r -> ws w -> is_whitespace c = false -> good (P ++ w) (c :: r) x s' -> find_char s' = (Ok true, s') -> eb (f true) s') ->
  (forall s', blank R -> good (P ++ R) [] x s' -> eb (f false) s') ->
  eb (bind find_char f) s.
Proof.
  intros G H1 H2. pose proof (pc_find_char (fun b s' => if b then
    exists w c r, R = w ++ c :: r /\ ws w /\ is_whitespace c = false else blank R) s) as H.
  destruct G as (R1 & G). rewrite R1 in H. lapply H; clear H.
  2:{ intros s' w c r _ _ E W _ Hc. exists w, c, r. auto. }
  intros H. lapply H; clear H. 2:{ intros s' w c _ _ E W Lc _. exists w, c. auto. }
  intros H. unfold pc in H. pose proof (conj R1 G : good P R x s) as G0. apply eb_bind.
  { apply eb_fine. unfold find_char. destruct (find_char_l _ _ _ _) as [b [[? ?] ?]]. discriminate. }
  intros b s' E. rewrite E in H. destruct b.
  - destruct H as (w & c & r & -> & W & Hc). destruct (good_find _ _ _ _ _ _ _ W Hc G0) as (s1 & E1 & G1).
    rewrite E1 in E. injection E as <-. eapply H1; eauto.
    destruct G1 as (R2 & _). destruct s1 as [f1 r1 l1 k1 g1 h1]. cbn in R2. subst r1. unfold find_char. cbn [s_rest s_line s_col find_char_l].
    destruct (adv c l1 k1). unfold is_whitespace in Hc. apply orb_false_iff in Hc as [Hc1 Hc2].
    rewrite ?Hc1, ?Hc2. reflexivity.
  - destruct (good_end _ _ _ _ _ H G0) as (s1 & E1 & G1). rewrite E1 in E. injection E as <-. auto.
Qed.

(** *** Results *)
Lemma upto_ok {A} (m m' : M A) s a s' : upto m m' -> m s = (Ok a, s') -> m' s = (Ok a, s').
Proof. intros H E. destruct (H s) as [X|X]; [rewrite E in X; discriminate|congruence]. Qed.
Lemma agr_good {A B} (Q : B -> Prop) (pr : A -> B) (m : M A) (ev : ES B) P t R x s a s' :
  agr Q pr m ev R s -> good P (t ++ R) x s -> keeps (P ++ t ++ R) m -> m s = (Ok a, s') ->
  exists x', ev x = Some (pr a, x') /\ good (P ++ t) R x' s' /\ Q (pr a).
Proof.
  intros G (R1 & X & F & K & L1 & C') Kp E.
  specialize (Kp s (good_in _ _ _ _ _ (conj R1 (conj X (conj F (conj K (conj L1 C'))))))).
  unfold agr in G. rewrite E in G, Kp. destruct G as (G1 & G2 & G3 & G4 & G5). exists (st s'). rewrite <- X. split; [exact G1|].
  rewrite app_assoc in Kp. apply in_good in Kp as [L2 C2]; auto. split; [|exact G5]. unfold FaultBase.good. rewrite G3. auto 7.
Qed.
Lemma inv_nm P R x s : good P R x s -> inv s -> nmps (fst x).
Proof. intros (_ & X & _) [N _]. rewrite <- X. exact N. Qed.
Lemma val_full n ps l k d close P R x s v s' : parse_value fs L n ps l k d close true s = (Ok v, s') ->
  good P R x s -> nmps (fst x) -> nmfs ps ->
  exists e t R' x', R = t ++ R' /\ r_expr e t /\ folb close R' /\ EE d ps e x = Some (v, x') /\ good (P ++ t) R' x' s' /\
    nmps (fst x') /\ nmv v.
Proof.
  intros E G N F. destruct (UT_all fs L li HL n n (le_n _)) as (H & _). apply (upto_ok _ _ _ _ _ (H _ _ _ _ _ _)) in E. clear H.
  destruct (P_all_holds fs li (load_wf fs (inc_fuel fs)) n) as (H & _).
  specialize (H ps l k d close true s (good_inv _ _ _ _ G N) F). unfold pc in H. rewrite E in H.
  destruct H as (I & V & t & E1 & [e He] & Fb). exists e, t, (s_rest s').
  assert (ER : R = t ++ s_rest s') by (destruct G as (<- & _); exact E1).
  rewrite ER in G. destruct G as (G1 & G2 & G3 & G4 & G5).
  destruct (agr_good _ _ _ _ P t (s_rest s') x s v s'
    (AE _ _ _ _ n (aah fs file n) e t d ps l k close (s_rest s') s He Fb (nmfs_okps _ F) G1 G3 G4) (conj G1 (conj G2 (conj G3 (conj G4 G5)))) (kv fs n _ _ _ _ _ _ _) E)
    as (x' & E2 & G' & _).
  exists x'. split; [exact ER|]. split; [exact He|]. split; [exact Fb|]. split; [exact E2|]. split; [exact G'|].
  split; [eapply inv_nm; eauto|exact V].
Qed.
Lemma val_atom n ps l k d close P R x s v s' : parse_value fs L n ps l k d close false s = (Ok v, s') ->
  good P R x s -> nmps (fst x) -> nmfs ps ->
  exists a t R' x', R = t ++ R' /\ r_atom a t /\ (ended R' \/ closed_atom a = true) /\ (forall c r, R = c :: r -> dot_start c -> dot_sub a) /\
    EA d ps a x = Some (v, x') /\ good (P ++ t) R' x' s' /\ nmps (fst x') /\ nmv v.
Proof.
  intros E G N F. destruct (UT_all fs L li HL n n (le_n _)) as (H & _). apply (upto_ok _ _ _ _ _ (H _ _ _ _ _ _)) in E. clear H.
  destruct (P_all_holds fs li (load_wf fs (inc_fuel fs)) n) as (H & _).
  specialize (H ps l k d close false s (good_inv _ _ _ _ G N) F). unfold pc in H. rewrite E in H.
  destruct H as (I & V & t & E1 & a & Ha & Ds & Fb). exists a, t, (s_rest s').
  assert (ER : R = t ++ s_rest s') by (destruct G as (<- & _); exact E1).
  assert (RS : s_rest s = R) by apply G.
  rewrite ER in G. destruct G as (G1 & G2 & G3 & G4 & G5).
  destruct (agr_good _ _ _ _ P t (s_rest s') x s v s'
    (val_closed fs file n a t d ps l k close (s_rest s') s Ha Fb (nmfs_okps _ F) G1 G3 G4) (conj G1 (conj G2 (conj G3 (conj G4 G5)))) (kv fs n _ _ _ _ _ _ _) E)
    as (x' & E2 & G' & _).
  exists x'. split; [exact ER|]. split; [exact Ha|]. split; [exact Fb|]. split; [rewrite <- RS; exact Ds|]. split; [exact E2|]. split; [exact G'|].
  split; [eapply inv_nm; eauto|exact V].
Qed.

(** *** The code at each place *)
Definition items_codeL n ps par d close : M (list pair_t * option obj) :=
  let* found := find_char in
  if negb found then match close with Some _ => let* l := getline in fail (UnexpectedEnd l) | None => ret (ps, par) end
  else pairs_loop fs L n ps par d close.
Definition chain_codeL n ps d close vals ops : M value :=
  let* x := parse_ops fs L n ps d close vals ops in
  let* _ := check_value_end close in low_code x.
Definition inc_tailL (k : inc_ty) (v : value) (line col : N) : M value :=
  let* found := find_char in
  if negb found then let* l := getline in fail (UnexpectedEnd l)
  else
    let* c := next_unwrap in
    if negb (c =? c_gt) then
      let* l := getline in
      let* k := col_minus_1 in
      fail (InvalidClosingBracket (Some c_gt) c l k)
    else
      match v with
      | VStr include_file => finish_include fs L k include_file line col
      | _ => fail (ExpectedType TStr (get_type v) line col)
      end.
Definition inc_codeL n ps d (k : inc_ty) : M value :=
  let* found := find_char in
  if negb found then let* l := getline in fail (UnexpectedEnd l)
  else
    let* '(line, col) := getpos in
    let* v := parse_value fs L n ps line col d (Some c_gt) true in
    inc_tailL k v line col.
Definition done n (pl : place) (P : str) (s : pstate) : Prop :=
  match pl with
  | InItems ps par d close => eb (items_codeL n ps par d close) s
  | InArr ps d els => forall t, lub (map get_type els) = Some t -> eb (arr_loop fs L n ps d els t (has_any t)) s
  | InTup ps d els => eb (tup_loop fs L n ps d els) s
  | ArrFile els => forall t, lub (map get_type els) = Some t -> eb (arr_file_loop fs L n els t (has_any t)) s
  | TupFile els => eb (tup_file_loop fs L n els) s
  | InInc ps d k => eb (inc_codeL n ps d k) s
  | AtValue r ps d close => eb (parse_value fs L n ps (line_of P) (col_of P) d close (whole r)) s
  | AtName _ ps d close => eb (parse_variable fs L n ps (line_of P) (col_of P) d close) s
  | InChain ps d close _ terms cur pre => eb (chain_codeL n ps d close (chain_vals terms cur pre) (map snd terms)) s
  end.
Lemma eb_upto {A} (m m' : M A) s e : upto m m' -> mb e m' s -> blamed e -> eb m s.
Proof.
  intros H M B. unfold eb. destruct (H s) as [X|X].
  - destruct (m s) as [o s']. cbn in X. subst o. exact I.
  - unfold mb in M. rewrite X in M. destruct (m s) as [[a|e'| |] s']; auto. subst e'. exact B.
Qed.
Lemma upto_arr_file n vs t any : upto (arr_file_loop fs L n vs t any) (arr_file_loop fs li n vs t any).
Proof.
  revert vs t any. induction n as [|n IH]; intros vs t any; [apply upto_nofuel|].
  destruct (UT_all fs L li HL n n (le_n _)) as (H & _). cbn [arr_file_loop].
  apply upto_bind; [apply upto_refl|]. intros b. destruct (negb b); [apply upto_refl|].
  apply upto_bind; [apply upto_refl|]. intros [l k]. apply upto_bind; [apply H|]. intros v.
  destruct (arr_check_step _ _ _) as [[]|[]]; [apply IH|apply upto_refl].
Qed.
Lemma upto_tup_file n vs : upto (tup_file_loop fs L n vs) (tup_file_loop fs li n vs).
Proof.
  revert vs. induction n as [|n IH]; intros vs; [apply upto_nofuel|].
  destruct (UT_all fs L li HL n n (le_n _)) as (H & _). cbn [tup_file_loop].
  apply upto_bind; [apply upto_refl|]. intros b. destruct (negb b); [apply upto_refl|].
  apply upto_bind; [apply upto_refl|]. intros [l k]. apply upto_bind; [apply H|]. intros v. apply IH.
Qed.
Lemma nm_ok pl : nmplace pl -> okplace pl.
Proof.
  destruct pl; cbn [nmplace okplace].
  - intros [H _]. apply okp_okf; auto.
  - intros (H1 & H2 & H3). split; [apply nmfs_okps; auto|]. split; auto. eapply Forall_impl; [|exact H2]. apply nmv_okv.
  - intros (H1 & H2). split; [apply nmfs_okps; auto|]. eapply Forall_impl; [|exact H2]. apply nmv_okv.
  - intros (H2 & H3). split; auto. eapply Forall_impl; [|exact H2]. apply nmv_okv.
  - intros H2. eapply Forall_impl; [|exact H2]. apply nmv_okv.
  - apply nmfs_okps.
  - apply nmfs_okps.
  - apply nmfs_okps.
  - intros (H1 & H2 & H3). split; [apply nmfs_okps; auto|]. split; [|apply nmv_okv; auto]. eapply Forall_impl; [|exact H2]. apply nmv_okv.
Qed.
(** A fault at the place where the reader is. *)
Lemma by_fault n pl x P R s k : here pl x P R s -> fault fs file pl x P R k -> done n pl P s.
Proof.
  intros H F. pose proof (here_fault _ _ _ _ _ _ H F) as B. destruct H as (S & _ & Ft & G & _ & Nm).
  pose proof (fault_sound fs file pl x P R k Ft F (nm_ok _ Nm) n s G) as M.
  destruct (UT_all fs L li HL n n (le_n _)) as (H1&H2&H3&H4&H5&H6&H7&H8&H9&H10&H11&H12).
  destruct pl; cbn [done].
  - eapply eb_upto; [|exact M|exact B]. apply upto_bind; [apply upto_refl|]. intros b.
    destruct (negb b); [apply upto_refl|apply H5].
  - intros t Ht. eapply eb_upto; [|exact (M t Ht)|exact B]. apply H8.
  - eapply eb_upto; [|exact M|exact B]. apply H10.
  - intros t Ht. eapply eb_upto; [|exact (M t Ht)|exact B]. apply upto_arr_file.
  - eapply eb_upto; [|exact M|exact B]. apply upto_tup_file.
  - eapply eb_upto; [|exact M|exact B]. apply upto_bind; [apply upto_refl|]. intros b.
    destruct (negb b); [apply upto_refl|]. apply upto_bind; [apply upto_refl|]. intros [l q].
    apply upto_bind; [apply H1|]. intros v. apply upto_bind; [apply upto_refl|]. intros b'.
    destruct (negb b'); [apply upto_refl|]. apply upto_bind; [apply upto_refl|]. intros c'.
    destruct (negb (c' =? 62)); [apply upto_refl|]. destruct v; try apply upto_refl. apply upto_finish. exact HL.
  - eapply eb_upto; [|exact M|exact B]. apply H1.
  - eapply eb_upto; [|exact M|exact B]. apply H11.
  - eapply eb_upto; [|exact M|exact B]. apply upto_bind; [apply H2|]. intros; apply upto_refl.
Qed.
End Done.
