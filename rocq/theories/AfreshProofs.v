(** * AfreshProofs: remembering the values of included files is invisible. *)
From Verif Require Export Afresh IncSemProofs Relate.
Open Scope N_scope.

Notation co := (corr 0 0).
Notation yes := (fun _ : str => True).
Notation anysh := (fun _ : shared => True).

(** ** Two meanings of includes that do the same *)
Section Serves.
Context `{U : Unicode}.
Variable Tb : shared -> shared -> Prop.
Hypothesis Tb_g : forall h h' g g', g_desc (sh_g h) g -> g_desc (sh_g h') g' -> Tb h h' -> Tb (set_g h g) (set_g h' g').
(** From related states, with every result of the first goes one of the second. *)
Definition moves (h0 h0' : shared) (W : wd) (v v' : value) (h h' : shared) : Prop :=
  co W v v' /\ ids 0 W (sh_g h) (sh_g h') /\ Tb h h' /\ g_desc (sh_g h0) (sh_g h) /\ g_desc (sh_g h0') (sh_g h').
Definition serves (inc inc' : inc_ty -> str -> ES value) : Prop := forall W gl gl' h h' k p v x,
  ids 0 W (sh_g h) (sh_g h') -> Tb h h' -> inc k p (gl, h) = Some (v, x) ->
  fst x = gl /\ exists v' h1 W', inc' k p (gl', h') = Some (v', (gl', h1)) /\ incl W W' /\ moves h h' W' v v' (snd x) h1.

Notation T := (fun _ : wd => Tb).
Lemma serves_rel inc inc' A B W k p : serves inc inc' -> rel yes yes 0 T anysh A B [] W co (inc k p) (inc' k p).
Proof.
  intros Sv [gl h] [gl' h'] v x (F1 & F2 & (F3 & P1 & P2) & (F4 & P3 & P4) & [G Hv] & F6) E. cbn [fst snd] in *.
  destruct (Sv W gl gl' h h' k p v x G Hv E) as (Eg & v' & h1 & W' & E' & I & C & G' & Tn & D1 & D2).
  exists v', (gl', h1), W'. split; [exact E'|]. split; [exact I|]. split; [exact C|]. destruct x as [gx hx]. cbn [fst snd] in *. subst gx.
  split; [exact (finds_mono 0 _ _ _ _ _ I F1)|]. split; [exact F2|]. split; [split; [exact F3|split; [eapply desc_trans; eauto|exact Logic.I]]|].
  split; [split; [exact F4|split; [eapply desc_trans; eauto|exact Logic.I]]|]. split; [split; auto|]. intros q [].
Qed.
Lemma inv_start W h h' : ids 0 W (sh_g h) (sh_g h') -> Tb h h' -> inv yes yes 0 T anysh ([], h) ([], h') [] W ([], h) ([], h').
Proof.
  intros G Hv. split; [intros n v _ X; discriminate|]. split; [intros n _ X; reflexivity|].
  split; [apply (past_self anysh); [apply G|exact I]|]. split; [apply (past_self anysh); [apply G|exact I]|]. split; [split; auto|]. intros q [].
Qed.
Lemma rel_listed inc inc' A B W es : serves inc inc' ->
  rel yes yes 0 T anysh A B [] W (fun W vs ws => Forall2 (co W) vs ws) (emap (ev_expr inc limit64 1 []) es) (emap (ev_expr inc' limit64 1 []) es).
Proof.
  intros Sv. pose proof (rel_emap yes yes 0 T anysh A B [] (ev_expr inc limit64 1 []) (ev_expr inc' limit64 1 []) (fun e : expr => e) (fun e => e) es W) as R.
  rewrite !map_id in R. apply R. apply Forall_forall. intros e _ W' _.
  apply (gen_expr inc inc' limit64 eq ltac:(intros; congruence) ltac:(intros; congruence) yes yes 0 True T ltac:(auto) ltac:(auto) anysh ltac:(auto) A B []); auto.
  - intros W1 k p _. apply serves_rel; auto.
  - intros n v _ X; discriminate.
Qed.
Lemma contents_rel inc inc' A B W c : serves inc inc' -> rel yes yes 0 T anysh A B [] W co (ev_contents inc c) (ev_contents inc' c).
Proof.
  intros Sv. destruct c as [t|items|es|es]; cbn [ev_contents].
  - apply rel_ret. constructor.
  - eapply rel_bind with (Q := fun W o p => corr_obj 0 0 W o p); [|intros W' o p I C; apply rel_ret; constructor; exact C].
    unfold ev_doc. eapply rel_bind.
    + apply (gen_all_items inc inc' limit64 eq ltac:(intros; congruence) ltac:(intros; congruence) yes yes 0 True T ltac:(auto) ltac:(auto) anysh ltac:(auto) A B []); auto.
      * intros W1 k p _. apply serves_rel; auto.
      * intros n v _ X; discriminate.
      * exact I.
    + intros W1 r r' I1 (new & new' & N1 & N2 & N3 & N4). eapply rel_bind; [apply rel_fresh; auto|].
      intros W2 i j I2 (Hin & _). apply rel_ret. rewrite N1, N2. cbn [app].
      pose proof (History.corr_pairs_mono _ _ _ _ _ _ I2 N3) as N3'. pose proof (co_opt_mono 0 _ _ _ _ I2 N4) as N4'.
      destruct (snd r) as [p|], (snd r') as [q|]; try contradiction; constructor; auto.
  - eapply rel_bind with (Q := fun W a b => co W (VArr a) (VArr b)); [|intros W' o p I C; apply rel_ret; exact C].
    unfold ev_arr_doc. eapply rel_bind; [apply rel_listed; auto|].
    intros W1 vs ws I1 C. rewrite <- (History.corr_types _ _ _ _ _ C). destruct (lub _) as [t|]; [|apply rel_fail].
    eapply rel_bind; [apply rel_fresh; auto|]. intros W2 i j I2 (Hin & L1 & L2). apply rel_ret. constructor; auto. eapply History.corr_list_mono; eauto.
  - eapply rel_bind with (Q := fun W a b => co W (VTup a) (VTup b)); [|intros W' o p I C; apply rel_ret; exact C].
    unfold ev_tup_doc. eapply rel_bind; [apply rel_listed; auto|].
    intros W1 vs ws I1 C. rewrite <- (History.corr_types _ _ _ _ _ C).
    eapply rel_bind; [apply rel_fresh; auto|]. intros W2 i j I2 (Hin & L1 & L2). apply rel_ret. constructor; auto. eapply History.corr_list_mono; eauto.
Qed.
Lemma contents_move inc inc' c W h h' v y : serves inc inc' -> ids 0 W (sh_g h) (sh_g h') -> Tb h h' ->
  ev_contents inc c ([], h) = Some (v, y) ->
  exists v' y' W', ev_contents inc' c ([], h') = Some (v', y') /\ incl W W' /\ moves h h' W' v v' (snd y) (snd y').
Proof.
  intros Sv G Hv E. destruct (contents_rel inc inc' ([], h) ([], h') W c Sv _ _ _ _ (inv_start W h h' G Hv) E)
    as (v' & y' & W' & E' & I & C & (_ & _ & (_ & D1 & _) & (_ & D2 & _) & [G' T'] & _)).
  exists v', y', W'. split; [exact E'|]. split; [exact I|]. split; [exact C|]. split; [exact G'|]. split; [exact T'|]. split; [exact D1|exact D2].
Qed.
End Serves.

(** ** Correspondences compose *)
Definition comp (W W' : wd) : wd := flat_map (fun p => map (fun q => (fst p, snd q)) (filter (fun q => snd p =? fst q) W')) W.
Lemma in_comp W W' i l : In (i, l) (comp W W') <-> exists j, In (i, j) W /\ In (j, l) W'.
Proof.
  unfold comp. rewrite in_flat_map. split.
  - intros ([a b] & X & Y). apply in_map_iff in Y as ([c d] & E & Y). apply filter_In in Y as [Y Z]. cbn in *. apply N.eqb_eq in Z.
    injection E as <- <-. subst c. eauto.
  - intros (j & X & Y). exists (i, j). split; auto. apply in_map_iff. exists (j, l). split; auto. apply filter_In. split; auto. cbn. apply N.eqb_refl.
Qed.
Lemma corr_comp_both W W' : (forall v w, co W v w -> forall u, co W' w u -> co (comp W W') v u) /\
  (forall o p, corr_obj 0 0 W o p -> forall q, corr_obj 0 0 W' p q -> corr_obj 0 0 (comp W W') o q).
Proof.
  assert (L : forall vs, Forall (fun v => forall w, co W v w -> forall u, co W' w u -> co (comp W W') v u) vs ->
    forall ws us, Forall2 (co W) vs ws -> Forall2 (co W') ws us -> Forall2 (co (comp W W')) vs us).
  { intros vs F ws us H. revert us. induction H; intros us K; inversion K; subst; constructor; inversion F; subst; eauto. }
  assert (L2 : forall ps : list (str * value), Forall (fun v => forall w, co W v w -> forall u, co W' w u -> co (comp W W') v u) (map snd ps) ->
    forall qs rs, corr_pairs 0 0 W ps qs -> corr_pairs 0 0 W' qs rs -> corr_pairs 0 0 (comp W W') ps rs).
  { intros ps F qs rs H. revert rs. induction H as [|x y ps qs [E H] _ IH]; intros rs K; inversion K as [|? z ? ? [E' H'] K']; subst; constructor; inversion F; subst.
    - split; [congruence|eauto].
    - apply IH; auto. }
  apply value_obj_ind2; try (intros; match goal with H : co W _ _ |- _ => inversion H; subst end;
    match goal with H : co W' _ _ |- _ => inversion H; subst end; constructor; eauto; fail).
  - intros id t vs F w H u K. inversion H; subst. inversion K; subst. constructor; try lia; [apply in_comp; eauto|eauto].
  - intros id t vs F w H u K. inversion H; subst. inversion K; subst. constructor; try lia; [apply in_comp; eauto|eauto].
  - intros id ps par Hps Hpar p H u K. inversion H; subst; inversion K; subst; constructor; try (apply in_comp; eauto; fail); eauto.
    all: eapply L2; eauto.
Qed.
Lemma corr_comp W W' v w u : co W v w -> co W' w u -> co (comp W W') v u.
Proof. intros H. apply (proj1 (corr_comp_both W W') v w H). Qed.
Lemma ids_comp W W' g1 g2 g3 : ids 0 W g1 g2 -> ids 0 W' g2 g3 -> ids 0 (comp W W') g1 g3.
Proof.
  intros (G1 & _ & _ & H) (_ & G3 & _ & K). split; [exact G1|]. split; [exact G3|]. split; [intros []|].
  intros i l X. apply (proj1 (in_comp W W' i l)) in X as (j & X & Y). apply H in X as (A1 & _ & A3). apply K in Y as (_ & B2 & B3).
  split; [exact A1|]. split; [exact B2|]. intros k. rewrite A3. apply B3.
Qed.
Lemma ids_nil g g' : g_ok g -> g_ok g' -> ids 0 [] g g'.
Proof. intros G G'. split; [split; [exact G|lia]|]. split; [split; [exact G'|lia]|]. split; [intros []|]. intros i j []. Qed.

(** ** Without a cache *)
Section Pure.
Context `{U : Unicode}.
Variables (fs : fsys) (ar : archive).
Hypothesis Coh : coherent fs.
Notation fresh_inc n file := (afresh fs ar n file).

Lemma nat_contents c : natural (fun inc => ev_contents inc c).
Proof.
  destruct c as [t|items|es|es]; cbn [ev_contents]; split.
  - intros inc inc' R H. apply sim_ret.
  - intros inc R H. apply keeps_ret. apply H.
  - intros inc inc' R H. apply sim_bind; [apply (proj1 (nat_doc limit64 items)); exact H|]. intros o. apply sim_ret.
  - intros inc R H. apply keeps_bind; [apply H|apply (proj2 (nat_doc limit64 items)); exact H|]. intros o. apply keeps_ret. apply H.
  - intros inc inc' R H. apply sim_bind; [apply (proj1 (nat_arr limit64 es)); exact H|]. intros o. apply sim_ret.
  - intros inc R H. apply keeps_bind; [apply H|apply (proj2 (nat_arr limit64 es)); exact H|]. intros o. apply keeps_ret. apply H.
  - intros inc inc' R H. apply sim_bind; [apply (proj1 (nat_tup limit64 es)); exact H|]. intros o. apply sim_ret.
  - intros inc R H. apply keeps_bind; [apply H|apply (proj2 (nat_tup limit64 es)); exact H|]. intros o. apply keeps_ret. apply H.
Qed.
Lemma eq_simrel inc inc' : (forall k p x r, inc k p x = Some r -> inc' k p x = Some r) -> simrel inc inc' eq.
Proof.
  intros H. split; [intros ? ? ->; auto|]. split; [intros ? ? ->; auto|]. split; [intros ? ? ->; auto|]. split; [intros ? ? k -> _; auto|].
  split; [intros ? ? f v ->; auto|]. intros k p x y v x' -> E. exists x'. split; auto.
Qed.
Lemma contents_more inc inc' c x r : (forall k p x r, inc k p x = Some r -> inc' k p x = Some r) -> ev_contents inc c x = Some r -> ev_contents inc' c x = Some r.
Proof.
  intros H E. destruct r as [v y]. destruct (proj1 (nat_contents c) inc inc' eq (eq_simrel inc inc' H) x x v y eq_refl E) as (y' & E' & <-). exact E'.
Qed.
(** Deeper nesting allowed: nothing changes. *)
Lemma afresh_S n : forall file k p x r, fresh_inc n file k p x = Some r -> fresh_inc (S n) file k p x = Some r.
Proof.
  induction n as [|n IH]; [discriminate|]. intros file k p x r E. remember (S n) as m. cbn [afresh]. subst m. cbn [afresh] in E.
  destruct (canon fs (target file p)) as [full|]; [|discriminate]. destruct (ar full) as [c|]; [|discriminate].
  destruct (kind_eqb k (kind_in c)); [|discriminate]. unfold apart in *.
  destruct (ev_contents (afresh fs ar n (Some (target file p))) c ([], snd x)) as [[v y]|] eqn:Ec; [|discriminate].
  rewrite (contents_more _ (afresh fs ar (S n) (Some (target file p))) c _ _ (IH _) Ec). exact E.
Qed.
Lemma afresh_le n m file k p x r : (n <= m)%nat -> fresh_inc n file k p x = Some r -> fresh_inc m file k p x = Some r.
Proof. induction 1; auto. intros E. apply afresh_S; auto. Qed.
Lemma contents_le n m path c x r : (n <= m)%nat -> ev_contents (fresh_inc n (Some path)) c x = Some r -> ev_contents (fresh_inc m (Some path)) c x = Some r.
Proof. intros L. apply contents_more. intros k p y s. apply afresh_le; auto. Qed.

(** The state does not matter, nor the path of the file. *)
Definition alias (file file' : option str) : Prop := forall q, canon fs (target file q) = canon fs (target file' q).
Lemma alias_paths path path' full : canon fs path = Some full -> canon fs path' = Some full -> alias (Some path) (Some path').
Proof. intros H H' q. exact (Coh _ _ _ _ H H'). Qed.
Definition nothing (h h' : shared) : Prop := True.
Lemma pure_serves n : forall file file', alias file file' -> serves nothing (fresh_inc n file) (fresh_inc n file').
Proof.
  induction n as [|n IH]; intros file file' Al W gl gl' h h' k p v x G _ E; [discriminate|]. cbn [afresh] in *. rewrite <- (Al p).
  destruct (canon fs (target file p)) as [full|] eqn:Ef; [|discriminate]. destruct (ar full) as [c|]; [|discriminate].
  destruct (kind_eqb k (kind_in c)); [|discriminate]. unfold apart in *. cbn [fst snd] in *.
  destruct (ev_contents (afresh fs ar n (Some (target file p))) c ([], h)) as [[w y]|] eqn:Ec; [|discriminate]. injection E as -> <-. cbn [fst snd].
  split; [reflexivity|].
  assert (Al' : alias (Some (target file p)) (Some (target file' p))) by (eapply alias_paths; [exact Ef|rewrite <- (Al p); exact Ef]).
  destruct (contents_move nothing ltac:(exact (fun _ _ _ _ _ _ H => H)) _ _ c W h h' v y (IH _ _ Al') G I Ec) as (v' & y' & W' & E' & Ic & M).
  rewrite E'. exists v', (snd y'), W'. auto.
Qed.

(** ** Levels *)
(** The file [full] has a value if at most [n] includes are nested inside it. *)
Definition runs (n : nat) (full : str) : Prop := exists path c h r, canon fs path = Some full /\ ar full = Some c /\ g_ok (sh_g h) /\
  ev_contents (fresh_inc n (Some path)) c ([], h) = Some r.
Lemma transfer n path path' full c h h' v y : canon fs path = Some full -> canon fs path' = Some full -> g_ok (sh_g h) -> g_ok (sh_g h') ->
  ev_contents (fresh_inc n (Some path)) c ([], h) = Some (v, y) ->
  exists v' y' W, ev_contents (fresh_inc n (Some path')) c ([], h') = Some (v', y') /\ moves nothing h h' W v v' (snd y) (snd y').
Proof.
  intros Ef Ef' G G' E.
  destruct (contents_move nothing ltac:(exact (fun _ _ _ _ _ _ H => H)) _ _ c [] h h' v y (pure_serves n _ _ (alias_paths _ _ _ Ef Ef')) (ids_nil _ _ G G') I E)
    as (v' & y' & W & E' & _ & M). eauto.
Qed.
Lemma least n path full c h r : canon fs path = Some full -> ar full = Some c -> g_ok (sh_g h) ->
  ev_contents (fresh_inc n (Some path)) c ([], h) = Some r ->
  exists m, (m <= n)%nat /\ ev_contents (fresh_inc m (Some path)) c ([], h) = Some r /\ forall m', (m' < m)%nat -> ~ runs m' full.
Proof.
  intros Ef Ea G. induction n as [n IH] using (well_founded_induction lt_wf). intros E.
  destruct n as [|n]; [exists O; split; [lia|split; [exact E|intros m' L; lia]]|].
  destruct (ev_contents (fresh_inc n (Some path)) c ([], h)) as [r'|] eqn:E'.
  - assert (r' = r) by (apply (contents_le n (S n)) in E'; [congruence|lia]). subst r'.
    destruct (IH n ltac:(lia) E') as (m & L & Em & Min). exists m. split; [lia|auto].
  - exists (S n). split; [lia|]. split; [exact E|]. intros m' L (path' & c' & h' & [v' y'] & F1 & F2 & F3 & F4).
    assert (c' = c) by congruence. subst c'. apply (contents_le m' n) in F4; [|lia].
    destruct (transfer n path' path full c h' h v' y' F1 Ef F3 G F4) as (v & y & W & X & _). congruence.
Qed.
End Pure.

(** ** With the cache *)
Section Cached.
Context `{U : Unicode}.
Variables (fs : fsys) (ar : archive).
Hypothesis Coh : coherent fs.
Hypothesis Des : describes fs ar.
Notation fresh_inc n file := (afresh fs ar n file).

Definition keep (full : str) (v : value) (h : shared) : shared := mksh ((full, v) :: sh_vals h) (sh_open h) (sh_log h) (sh_g h).
Fixpoint cached (n : nat) (chain : list str) (file : option str) (k : inc_ty) (p : str) : ES value := fun x =>
  match n with
  | O => None
  | S n =>
      match canon fs (target file p) with
      | Some full =>
          if mem_str full chain then None else
          match ar full with
          | Some c =>
              if kind_eqb k (kind_in c)
              then match assoc full (sh_vals (snd x)) with
                   | Some v => Some (v, x)
                   | None =>
                       match ev_contents (cached n (full :: chain) (Some (target file p))) c ([], snd x) with
                       | Some (v, y) => Some (v, (fst x, keep full v (snd y)))
                       | None => None
                       end
                   end
              else None
          | None => None
          end
      | None => None
      end
  end.
Lemma readable_entry path text : readable fs path text -> exists i fe, fs_entry fs path = Some (i, fe) /\ fe_read fe = inl text.
Proof. intros (i & fe & A & B & _). eauto. Qed.
Lemma contents_value inc c text h v y : written c text -> ev_contents inc c ([], h) = Some (v, y) -> file_value inc (kind_in c) text h v (snd y).
Proof.
  destruct c as [t|items|es|es]; cbn [written ev_contents kind_in].
  - intros <- E. injection E as <- <-. constructor.
  - intros H E. apply ebind_some in E as (o & [gl h1] & E & E2). injection E2 as <- <-. econstructor; eauto.
  - intros H E. apply ebind_some in E as (o & [gl h1] & E & E2). injection E2 as <- <-. econstructor; eauto.
  - intros H E. apply ebind_some in E as (o & [gl h1] & E & E2). injection E2 as <- <-. econstructor; eauto.
Qed.
Lemma cached_includes n : forall chain file k p x v y, cached n chain file k p x = Some (v, y) -> includes fs chain file k p x v y.
Proof.
  induction n as [|n IH]; [discriminate|]. intros chain file k p [gl h] v y E. cbn [cached fst snd] in E.
  destruct (canon fs (target file p)) as [full|] eqn:Ef; [|discriminate].
  destruct (mem_str full chain) eqn:M; [discriminate|].
  assert (Nc : ~ In full chain) by (intros X; apply mem_str_iff in X; congruence).
  destruct (ar full) as [c|] eqn:Ea; [|discriminate]. destruct (kind_eqb k (kind_in c)) eqn:K; [|discriminate]. apply kind_eqb_eq in K. subst k.
  destruct (assoc full (sh_vals h)) as [w|] eqn:A.
  - injection E as -> <-. eapply inc_again; eauto. split; reflexivity.
  - destruct (ev_contents _ c ([], h)) as [[w z]|] eqn:Ec; [|discriminate]. injection E as -> <-.
    destruct (Des _ _ _ Ef Ea) as (text & Rd & Wr). destruct (readable_entry _ _ Rd) as (i & fe & He & Hr).
    eapply inc_first with (inc := cached n (full :: chain) (Some (target file p))) (sh0 := h) (sh1 := snd z); eauto.
    + split; reflexivity.
    + eapply contents_value; eauto.
    + split; reflexivity.
Qed.

(** Every value kept is the value the file has without a cache. *)
Definition table (h h' : shared) : Prop := forall full w, assoc full (sh_vals h') = Some w ->
  exists path c n0 h0 v0 y0 W0, canon fs path = Some full /\ ar full = Some c /\ g_ok (sh_g h0) /\
    ev_contents (fresh_inc n0 (Some path)) c ([], h0) = Some (v0, y0) /\ co W0 v0 w /\ ids 0 W0 (sh_g (snd y0)) (sh_g h').
Lemma table_later h1 h2 h' : sh_vals h2 = sh_vals h' -> g_desc (sh_g h') (sh_g h2) -> table h1 h' -> table h1 h2.
Proof.
  intros E D T full w A. rewrite E in A. destruct (T full w A) as (path & c & n0 & h0 & v0 & y0 & W0 & X1 & X2 & X3 & X4 & X5 & X6).
  exists path, c, n0, h0, v0, y0, W0. split; [exact X1|]. split; [exact X2|]. split; [exact X3|]. split; [exact X4|]. split; [exact X5|].
  eapply ids_later; eauto. apply desc_refl. apply X6.
Qed.
Lemma table_g h h' g g' : g_desc (sh_g h) g -> g_desc (sh_g h') g' -> table h h' -> table (set_g h g) (set_g h' g').
Proof. intros _ D T. exact (table_later h (set_g h' g') h' eq_refl D T). Qed.
Lemma cached_serves n : forall N chain file, (n <= N)%nat -> (forall c m, In c chain -> (m < n)%nat -> ~ runs fs ar m c) ->
  serves table (fresh_inc n file) (cached N chain file).
Proof.
  induction n as [n IH] using (well_founded_induction lt_wf). intros N chain file L Ch W gl gl' h h' k p v x G T E.
  destruct n as [|n]; [discriminate|]. destruct N as [|N]; [lia|]. cbn [afresh] in E. cbn [cached fst snd].
  destruct (canon fs (target file p)) as [full|] eqn:Ef; [|discriminate]. destruct (ar full) as [c|] eqn:Ea; [|discriminate].
  destruct (kind_eqb k (kind_in c)) eqn:K; [|discriminate]. unfold apart in E. cbn [fst snd] in E.
  destruct (ev_contents (afresh fs ar n (Some (target file p))) c ([], h)) as [[w y]|] eqn:Ec; [|discriminate]. injection E as -> <-. cbn [fst snd].
  split; [reflexivity|]. assert (Gh : g_ok (sh_g h)) by apply G. assert (Gh' : g_ok (sh_g h')) by apply G.
  assert (M : mem_str full chain = false).
  { destruct (mem_str full chain) eqn:M; auto. apply mem_str_iff in M. exfalso. apply (Ch full n M); [lia|]. exists (target file p), c, h, (v, y). auto. }
  rewrite M. destruct (assoc full (sh_vals h')) as [w|] eqn:A.
  - destruct (T _ _ A) as (path & c' & n0 & h0 & v0 & y0 & W0 & X1 & X2 & X3 & X4 & X5 & X6). assert (c' = c) by congruence. subst c'.
    destruct (transfer fs ar Coh n0 path (target file p) full c h0 h v0 y0 X1 Ef X3 Gh X4) as (v1 & y1 & W1 & E1 & C1 & G1 & _ & D1 & D2).
    assert (Eq : Some (v1, y1) = Some (v, y)).
    { rewrite <- (contents_le fs ar n0 (max n0 n) _ _ _ _ (Nat.le_max_l _ _) E1). apply (contents_le fs ar n (max n0 n) _ _ _ _ (Nat.le_max_r _ _) Ec). }
    injection Eq as -> ->. exists w, h', (W ++ comp (flip W1) W0). split; [reflexivity|]. split; [apply incl_appl, incl_refl|].
    assert (D' : g_desc (sh_g h') (sh_g h')) by (apply desc_refl; exact Gh').
    split; [|split; [|split; [|split]]]; auto.
    + eapply History.corr_mono; [apply incl_appr, incl_refl|]. eapply corr_comp; [apply corr_flip; exact C1|exact X5].
    + apply ids_union; [eapply ids_later; eauto|]. eapply ids_comp; [apply ids_flip; exact G1|exact X6].
  - destruct (least fs ar Coh n (target file p) full c h (v, y) Ef Ea Gh Ec) as (m & Lm & Em & Min).
    assert (Sv : serves table (fresh_inc m (Some (target file p))) (cached N (full :: chain) (Some (target file p)))).
    { apply IH; [lia|lia|]. intros c' m' [<-|X] Lt; [apply Min; exact Lt|apply Ch; [exact X|lia]]. }
    destruct (contents_move table table_g _ _ c W h h' v y Sv G T Em) as (v' & y' & W' & E' & I & C & G' & T' & D1 & D2).
    rewrite E'. exists v', (keep full v' (snd y')), W'. split; [reflexivity|]. split; [exact I|]. split; [exact C|]. split; [exact G'|]. split; [|split; [exact D1|exact D2]].
    intros f u X. cbn [keep sh_vals assoc] in X. destruct (str_eqb_spec full f) as [<-|].
    + injection X as <-. exists (target file p), c, m, h, v, y, W'. auto 10.
    + exact (T' f u X).
Qed.
Lemma table_nil h h' : sh_vals h' = [] -> table h h'.
Proof. intros E full w A. rewrite E in A. discriminate. Qed.
End Cached.
