(** * ReplaceProofs: a file can be replaced by any other with the same data. *)
From Verif Require Export Replace AfreshConv.
Open Scope N_scope.

Lemma corr_part W q w : part q w -> forall v, co W v w -> exists p, part p v /\ co W p q.
Proof.
  induction 1 as [|id t vs w I P IH|id t vs w I P IH|id ps par f w I P IH|id ps p P IH]; intros v C.
  - exists v. split; [constructor|exact C].
  - inversion C as [| | | | |i j t' us ws H1 H2 H3 F| |]; subst. 
    assert (X : exists u, In u us /\ co W u w) by (clear -F I; induction F; [destruct I|destruct I as [->|I]; [eauto using in_eq|destruct (IHF I) as (u & A & B); eauto using in_cons]]).
    destruct X as (u & Iu & Cu). destruct (IH _ Cu) as (p & Pp & Cp). exists p. split; [econstructor; eauto|exact Cp].
  - inversion C as [| | | | | |i j t' us ws H1 H2 H3 F|]; subst.
    assert (X : exists u, In u us /\ co W u w) by (clear -F I; induction F; [destruct I|destruct I as [->|I]; [eauto using in_eq|destruct (IHF I) as (u & A & B); eauto using in_cons]]).
    destruct X as (u & Iu & Cu). destruct (IH _ Cu) as (p & Pp & Cp). exists p. split; [econstructor; eauto|exact Cp].
  - inversion C as [| | | | | | |o p' Co]; subst.
    assert (X : exists i qs par', o = MkObj i qs par' /\ Forall2 (fun x y => fst x = fst y /\ co W (snd x) (snd y)) qs ps)
      by (inversion Co; subst; eauto).
    destruct X as (i & qs & par' & -> & F).
    assert (X : exists u, In (f, u) qs /\ co W u w).
    { clear -F I. induction F as [|[a b] [a' b'] qs ps [E B] F IHF]; [destruct I|]. cbn in E, B. subst a'. destruct I as [I|I].
      - injection I as -> ->. eauto using in_eq.
      - destruct (IHF I) as (u & A & X). eauto using in_cons. }
    destruct X as (u & Iu & Cu). destruct (IH _ Cu) as (p & Pp & Cp). exists p. split; [econstructor; eauto|exact Cp].
  - inversion C as [| | | | | | |o p' Co]; subst. inversion Co as [|? ? ? ? p1 ? H1 H2 H3]; subst.
    destruct (IH (VObj p1) (History.co_obj _ _ _ _ _ H3)) as (p2 & Pp & Cp). exists p2. split; [apply part_parent; exact Pp|exact Cp].
Qed.
Lemma corr_ids W v w i j : co W v w -> id_of v = Some i -> id_of w = Some j -> In (i, j) W.
Proof.
  intros C Hi Hj. inversion C; subst; cbn in Hi, Hj; try discriminate; try (injection Hi as <-; injection Hj as <-; assumption).
  match goal with H : corr_obj _ _ _ _ _ |- _ => inversion H; subst end; injection Hi as <-; injection Hj as <-; assumption.
Qed.
Lemma corr_has_id W v w j : co W v w -> id_of w = Some j -> exists i, id_of v = Some i.
Proof. intros C H. inversion C; subst; cbn in *; try discriminate; eauto. Qed.
Lemma free_corr W g g' v w : ids 0 W g g' -> co W v w -> keyword_free g v -> keyword_free g' w /\
  forall q j, part q w -> id_of q = Some j -> j < g_next g' /\ ~ In j (g_taken g').
Proof.
  intros (_ & _ & _ & I) C F. split.
  - intros q j k P Hj S. destruct (corr_part W q w P v C) as (p & Pp & Cp). destruct (corr_has_id _ _ _ _ Cp Hj) as (i & Hi).
    apply (F p i k Pp Hi). apply (I i j (corr_ids _ _ _ _ _ Cp Hi Hj)). exact S.
  - intros q j P Hj. destruct (corr_part W q w P v C) as (p & Pp & Cp). destruct (corr_has_id _ _ _ _ Cp Hj) as (i & Hi).
    destruct (I i j (corr_ids _ _ _ _ _ Cp Hi Hj)) as (_ & (A & _ & B) & _). split; [exact A|exact B].
Qed.
(** Values with the same data correspond if all instances may. *)
Lemma co_full W : (forall v w, erase v = erase w ->
    (forall p q i j, part p v -> part q w -> id_of p = Some i -> id_of q = Some j -> In (i, j) W) -> co W v w) /\
  (forall o o', erase_obj o = erase_obj o' ->
    (forall p q i j, part p (VObj o) -> part q (VObj o') -> id_of p = Some i -> id_of q = Some j -> In (i, j) W) -> corr_obj 0 0 W o o').
Proof.
  assert (L : forall vs, Forall (fun v => forall w, erase v = erase w ->
    (forall p q i j, part p v -> part q w -> id_of p = Some i -> id_of q = Some j -> In (i, j) W) -> co W v w) vs ->
    forall ws, map erase vs = map erase ws ->
    (forall v w p q i j, In v vs -> In w ws -> part p v -> part q w -> id_of p = Some i -> id_of q = Some j -> In (i, j) W) -> Forall2 (co W) vs ws).
  { induction 1 as [|v vs H F IH]; intros [|w ws] E P; try discriminate; constructor; cbn [map] in E; injection E as E1 E2.
    - apply H; auto. intros p q i j A B. apply (P v w); auto using in_eq.
    - apply IH; auto. intros a b p q i j A B. apply (P a b); auto using in_cons. }
  apply value_obj_ind2; try (intros; match goal with H : erase _ = erase ?w |- _ => destruct w as [| | | | |[]|[]|]; try discriminate H; cbn in H; inversion H; subst; constructor end; fail).
  - intros id t vs F [| | | | |[j t' ws]|[]|] E P; try discriminate E. cbn [erase] in E. injection E as <- E.
    constructor; try lia; [apply (P (VArr (MkArr id t vs)) (VArr (MkArr j t ws))); constructor || reflexivity|].
    apply L; auto. intros v w p q a b A B Pp Pq. apply P; eapply part_arr; eauto.
  - intros id t vs F [| | | | |[]|[j t' ws]|] E P; try discriminate E. cbn [erase] in E. injection E as <- E.
    constructor; try lia; [apply (P (VTup (MkTup id t vs)) (VTup (MkTup j t ws))); constructor || reflexivity|].
    apply L; auto. intros v w p q a b A B Pp Pq. apply P; eapply part_tup; eauto.
  - intros o IH [| | | | |[]|[]|o'] E P; try discriminate E. cbn [erase] in E. injection E as E. constructor. apply IH; auto.
  - intros id ps par Hps Hpar [j qs par'] E P. cbn [erase_obj] in E. injection E as E1 E2.
    assert (Hin : In (id, j) W) by (apply (P (VObj (MkObj id ps par)) (VObj (MkObj j qs par'))); constructor || reflexivity).
    assert (Hp : Forall2 (fun x y => fst x = fst y /\ co W (snd x) (snd y)) ps qs).
    { assert (P2 : forall f f' v w p q a b, In (f, v) ps -> In (f', w) qs -> part p v -> part q w -> id_of p = Some a -> id_of q = Some b -> In (a, b) W).
      { intros f f' v w p q a b A B Pp Pq. apply P; eapply part_field; eauto. }
      clear -Hps E1 P2. revert qs E1 P2. induction ps as [|[f v] ps IH]; intros [|[f' w] qs] E1 P2; try discriminate; constructor; cbn [map] in E1; injection E1 as <- E3 E4; inversion Hps; subst.
      - split; [reflexivity|]. cbn [snd]. match goal with H : forall w0, _ |- _ => apply H; auto end. intros p q a b A B. apply (P2 f f v w); auto using in_eq.
      - apply IH; auto. intros g g' u x p q a b A B. apply (P2 g g' u x); auto using in_cons. }
    destruct par as [p|], par' as [p'|]; try discriminate; constructor; auto.
    apply (Hpar p eq_refl); [injection E2; auto|]. intros a b c d A B. apply P; apply part_parent; auto.
Qed.
Definition below (n : N) : list N := map N.of_nat (seq 0 (N.to_nat n)).
Lemma in_below i n : In i (below n) <-> i < n.
Proof.
  unfold below. rewrite in_map_iff. split.
  - intros (k & <- & H). apply in_seq in H. lia.
  - intros H. exists (N.to_nat i). split; [lia|]. apply in_seq. lia.
Qed.
Definition is_kw (g : gstate) (i : N) : bool := existsb (fun k => match g_sent g k with Some j => i =? j | None => false end) [IObj; IStr; IArr; ITup].
Lemma is_kw_iff g i : is_kw g i = false <-> forall k, g_sent g k <> Some i.
Proof.
  unfold is_kw. split.
  - intros H k S. assert (X : existsb (fun k => match g_sent g k with Some j => i =? j | None => false end) [IObj; IStr; IArr; ITup] = true); [|congruence].
    apply existsb_exists. exists k. split; [destruct k; cbn; auto|]. rewrite S. apply N.eqb_refl.
  - intros H. apply Bool.not_true_is_false. intros X. apply existsb_exists in X as (k & _ & X). destruct (g_sent g k) as [j|] eqn:S; [|discriminate].
    apply N.eqb_eq in X. subst j. exact (H k S).
Qed.
Definition mine (g : gstate) (i : N) : bool := negb (is_kw g i) && negb (existsb (N.eqb i) (g_taken g)).
Lemma mine_iff g i : mine g i = true <-> (forall k, g_sent g k <> Some i) /\ ~ In i (g_taken g).
Proof.
  unfold mine. rewrite Bool.andb_true_iff, !Bool.negb_true_iff, is_kw_iff. apply and_iff_compat_l. split.
  - intros H I. assert (X : existsb (N.eqb i) (g_taken g) = true); [|congruence]. apply existsb_exists. exists i. split; [exact I|apply N.eqb_refl].
  - intros H. apply Bool.not_true_is_false. intros X. apply existsb_exists in X as (j & I & X). apply N.eqb_eq in X. subst j. auto.
Qed.
Definition all_pairs (g g' : gstate) : wd := list_prod (filter (mine g) (below (g_next g))) (filter (mine g') (below (g_next g'))).
Lemma in_pairs g g' i j : In (i, j) (all_pairs g g') <-> (i < g_next g /\ (forall k, g_sent g k <> Some i) /\ ~ In i (g_taken g)) /\
  (j < g_next g' /\ (forall k, g_sent g' k <> Some j) /\ ~ In j (g_taken g')).
Proof.
  unfold all_pairs. rewrite in_prod_iff, !filter_In, !in_below, !mine_iff. reflexivity.
Qed.
Lemma pairs_ids g g' : g_ok g -> g_ok g' -> ids 0 (all_pairs g g') g g'.
Proof.
  intros G G'. split; [split; [exact G|lia]|]. split; [split; [exact G'|lia]|]. split; [intros []|]. intros i j H. apply in_pairs in H as [(A & B & N1) (C & D & N2)].
  split; [split; [exact A|split; [left; lia|exact N1]]|]. split; [split; [exact C|split; [left; lia|exact N2]]|]. intros k. split; intros S; [destruct (B k S)|destruct (D k S)].
Qed.

Section Rep.
Context `{U : Unicode}.
Variables (fs fs' : fsys) (ar ar' : archive).
Hypothesis Same : forall p, canon fs p = canon fs' p.
Hypothesis Coh : coherent fs.
Hypothesis Data : same_data fs fs' ar ar'.
Lemma coh' : coherent fs'.
Proof. intros path path' full q H H'. rewrite <- !Same in *. eapply Coh; eauto. Qed.
Lemma worth_at fsx arx full w path c h : coherent fsx -> worth fsx arx full w -> canon fsx path = Some full -> arx full = Some c -> g_ok (sh_g h) ->
  exists n v y, ev_contents (afresh fsx arx n (Some path)) c ([], h) = Some (v, y) /\ erase v = erase w /\ g_desc (sh_g h) (sh_g (snd y)) /\
    keyword_free (sh_g (snd y)) v /\ forall q j, part q v -> id_of q = Some j -> j < g_next (sh_g (snd y)) /\ ~ In j (g_taken (sh_g (snd y))).
Proof.
  intros Cx (n & path0 & c0 & h0 & v0 & x0 & X1 & X2 & X3 & X4 & X5 & X6) Ef Ea G. assert (c0 = c) by congruence. subst c0.
  destruct (transfer fsx arx Cx n path0 path full c h0 h v0 x0 X1 Ef X3 G X4) as (v & y & W & E & C & I & _ & D1 & D2).
  destruct (free_corr W _ _ _ _ I C X6) as [F B]. exists n, v, y. split; [exact E|]. split; [rewrite <- X5; symmetry; eapply History.corr_erase; eauto|].
  split; [exact D2|]. split; [exact F|exact B].
Qed.
Lemma replace_serves n : forall file, serves nothing (afresh fs ar n file) (afresh fs' ar' (n + files fs') file).
Proof.
  induction n as [|n IH]; intros file W gl gl' h h' k p v x I _ E; [discriminate|]. change (S n + files fs')%nat with (S (n + files fs'))%nat. cbn [afresh] in *. rewrite <- Same.
  destruct (canon fs (target file p)) as [full|] eqn:Ef; [|discriminate]. destruct (ar full) as [c|] eqn:Ea; [|discriminate].
  destruct (kind_eqb k (kind_in c)) eqn:K; [|discriminate]. unfold apart in *. cbn [fst snd] in *.
  destruct (ev_contents (afresh fs ar n (Some (target file p))) c ([], h)) as [[v0 y]|] eqn:Ec; [|discriminate]. injection E as -> <-. cbn [fst snd].
  split; [reflexivity|]. assert (G : g_ok (sh_g h)) by apply I. assert (G' : g_ok (sh_g h')) by apply I.
  destruct (Data full) as [Eq|(w & c1 & c' & Wl & Wr & A1 & A2 & Kk)].
  - rewrite <- Eq, Ea, K.
    destruct (contents_move nothing ltac:(exact (fun _ _ _ _ _ _ H => H)) _ _ c W h h' v y (IH _) I Logic.I Ec) as (v' & y' & W' & E' & Ic & M).
    unfold apart. cbn [fst snd]. rewrite E'. exists v', (snd y'), W'. auto.
  - assert (c1 = c) by congruence. subst c1. rewrite A2, <- Kk, K.
    destruct (worth_at fs ar full w (target file p) c h Coh Wl Ef Ea G) as (n1 & v1 & y1 & E1 & S1 & D1 & F1 & B1).
    assert (Eq : Some (v1, y1) = Some (v, y)).
    { rewrite <- (contents_le fs ar n1 (max n1 n) _ _ _ _ (Nat.le_max_l _ _) E1). apply (contents_le fs ar n (max n1 n) _ _ _ _ (Nat.le_max_r _ _) Ec). }
    injection Eq as -> ->. assert (Ef' : canon fs' (target file p) = Some full) by (rewrite <- Same; exact Ef).
    destruct (worth_at fs' ar' full w (target file p) c' h' coh' Wr Ef' A2 G') as (n2 & v2 & y2 & E2 & S2 & D2 & F2 & B2).
    apply (files_suffice fs' ar' coh' n2 _ full c' h' _ Ef' A2 G') in E2.
    apply (contents_le fs' ar' _ (n + files fs')) in E2; [|lia]. unfold apart. cbn [fst snd]. rewrite E2.
    assert (Gy : g_ok (sh_g (snd y))) by apply D1. assert (Gy2 : g_ok (sh_g (snd y2))) by apply D2.
    exists v2, (snd y2), (W ++ all_pairs (sh_g (snd y)) (sh_g (snd y2))). split; [reflexivity|]. split; [apply incl_appl, incl_refl|].
    split; [|split; [|split; [exact Logic.I|split; [exact D1|exact D2]]]].
    + eapply History.corr_mono; [apply incl_appr, incl_refl|]. apply co_full; [congruence|].
      intros a b i j Pa Pb Ha Hb. apply in_pairs. destruct (B1 _ _ Pa Ha) as [X1 X2], (B2 _ _ Pb Hb) as [Y1 Y2].
      split; (split; [assumption|split; [|assumption]]); intros k0; eauto.
    + apply ids_union; [eapply ids_later; [exact I|exact D1|exact D2]|]. apply pairs_ids; auto.
Qed.
End Rep.
