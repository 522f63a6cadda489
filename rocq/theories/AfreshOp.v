(** * AfreshOp: a load of files that are all used as what they are includes every file as what it is. *)
From Verif Require Export AfreshConv.
Open Scope N_scope.

Section Op.
Context `{U : Unicode}.
Variables (fs : fsys) (ar : archive).
Hypothesis Des : describes fs ar.
Notation SI' := (SI fs (fun _ => True)).

Definition RR (O C : list str) (y x : est) : Prop := RC fs O C x y /\ respects ar (sh_log (snd x)).
Lemma fits_one ar' e l : respects ar' l -> fits ar' e = true -> respects ar' (e :: l).
Proof. intros H F. apply respects_b. cbn [forallb]. rewrite F. apply respects_b. exact H. Qed.
Lemma RR_simrel inc inc' O C :
  (forall k p x y v x', RR O C x y -> inc k p x = Some (v, x') -> exists y', inc' k p y = Some (v, y') /\ RR O C x' y') -> simrel inc inc' (RR O C).
Proof.
  intros H. assert (TG : forall g : gstate, True -> True) by auto.
  assert (TS : forall (g : gstate) (k : inc_ty), True -> g_sent g k = None -> True) by auto.
  split; [|split; [|split; [|split; [|split]]]].
  - intros y x [(E & _) _]. auto.
  - intros y x [(_ & [_ E] & _) _]. auto.
  - intros y x [(R1 & [R2 R3] & R4 & R5) Rs]. split; [|exact Rs]. split; auto. split; [split; cbn; auto|]. split; [|exact R5].
    rewrite <- R3. apply SI_gen; auto.
  - intros y x k0 [(R1 & [R2 R3] & R4 & R5) Rs] N. split; [|exact Rs]. split; auto. split; [split; cbn; auto|]. split; [|exact R5].
    rewrite <- R3 in *. apply SI_sent; auto.
  - intros y x f w [(R1 & R2 & R4 & R5) Rs]. split; [|exact Rs]. split; [cbn; congruence|]. split; auto.
  - exact H.
Qed.
Lemma cached_op n : forall chain file k p y v y', cached fs ar n chain file k p y = Some (v, y') ->
  forall K O x, ctx fs False file O chain -> room fs chain K -> RR O chain y x ->
  exists x', inc_of fs (load_file fs K) file k p x = Some (v, x') /\ RR O chain y' x'.
Proof.
  induction n as [|n IH]; intros chain file k p y v y' E K O x Hx Rm [HR Rs]; [discriminate|].
  destruct (complete_all fs chain file k p y v y' (cached_includes fs ar Des (S n) chain file k p y v y' E) K O x Hx Rm HR) as (x' & Ex & HR').
  exists x'. split; [exact Ex|]. split; [exact HR'|].
  destruct HR as (Eg & [Sv Sg] & SIx & Wx). destruct SIx as (Sop & SL & SG). pose proof (ctx_octx _ _ _ _ _ Hx Rm) as Ox.
  destruct x as [gl h], y as [gl0 h0]. cbn [cached fst snd] in *. subst gl0.
  rewrite inc_of_eq in Ex. destruct (canon fs (target file p)) as [full|] eqn:Ef; [|discriminate].
  rewrite Sop, (opened_octx _ _ _ _ Ox) in Ex. destruct (mem_str full chain) eqn:M; [discriminate|].
  assert (Nc : ~ In full chain) by (intros X; apply mem_str_iff in X; congruence).
  destruct (ar full) as [c|] eqn:Ea; [|discriminate]. destruct (kind_eqb k (kind_in c)) eqn:Kd; [|discriminate].
  rewrite Sv in Ex. destruct (assoc full (sh_vals h0)) as [w|] eqn:A.
  - injection Ex as -> <-. cbn [snd sh_log]. apply fits_one; [apply fits_one; auto|]. cbn [fits]. rewrite Ea. exact Kd.
  - apply kind_eqb_eq in Kd. subst k. rewrite <- Sv in Ex. set (path := target file p) in *.
    set (shA := mksh (sh_vals h) chain (ETry full :: sh_log h) (sh_g h)) in *.
    destruct (load_file fs K (kind_in c) path shA) as [[w|e| |] shL] eqn:L; try discriminate. injection Ex as -> <-. cbn [snd sh_log].
    apply fits_one; [|cbn [fits]; rewrite Ea; apply kind_eqb_eq; reflexivity].
    destruct K as [|K]; [discriminate|]. assert (WA : wfvals shA) by exact Wx.
    destruct (load_contents fs ar Des K path full c shA v shL Ef Ea WA L) as (z & -> & Ev). cbn [log_ev sh_log]. apply fits_one; [|reflexivity].
    destruct (ev_contents (cached fs ar n (full :: chain) (Some path)) c ([], h0)) as [[w z0]|] eqn:Ec; [|discriminate]. injection E as -> <-.
    assert (SA : LI fs chain [] shA) by exact (LI_openset fs _ _ _ chain (LI_try fs _ _ _ _ SL Nc)).
    assert (Hctx : ctx fs False (Some path) chain (full :: chain)) by (right; right; eauto).
    assert (Hroom : room fs (full :: chain) K).
    { destruct Rm as (Nd & Inc & Rm). split; [constructor; auto|]. split; [|cbn [length]; lia].
      intros a [<-|X]; [eapply canon_in; eauto|auto]. }
    set (shB := log_ev (EOpen (Some full)) shA) in *.
    assert (SB : SI' chain (full :: chain) shB) by (split; [reflexivity|split; auto; apply LI_open; auto; cbn; congruence]).
    destruct (proj1 (nat_contents c) _ _ _ (RR_simrel (cached fs ar n (full :: chain) (Some path)) (inc_of fs (load_file fs K) (Some path)) chain (full :: chain)
      (fun k p x y v x' R E => IH _ _ k p x v x' E K chain y Hctx Hroom R)) ([], h0) ([], shB) v z0) as (z1 & E1 & E2); [|exact Ec|].
    + split; [|apply fits_one; [apply fits_one; auto|reflexivity]]. split; [reflexivity|]. split; [split; cbn; congruence|]. split; [exact SB|exact Wx].
    + rewrite E1 in Ev. injection Ev as ->. apply E2.
Qed.
(** A text that was loaded. *)
Lemma op_str g n items text o y o' sh' : r_doc items text -> ev_doc (cached fs ar n [] None) limit64 items ([], init_sh g) = Some (o, y) ->
  parse_obj_str fs g text = (Ok o', sh') -> respects ar (sh_log sh').
Proof.
  intros R E Rn. unfold parse_obj_str in Rn.
  apply (run_ok_agr _ _ _ _ _ _ _ _ (@obj_stream_agr U (fun _ => False) fs (load_file fs (inc_fuel fs)) None limit64
      (fun d E => E) (fun d E => or_introl E) (load_wf fs (inc_fuel fs)) _ items text (mkst None text 1 1 [] (init_sh g)) R eq_refl eq_refl (okst_init None text (init_sh g) (Forall_nil _)))) in Rn as (gl & Ev & _).
  assert (HS : SI' [] [] (init_sh g)) by (split; [reflexivity|split; [apply LI_init|exact I]]).
  assert (Hc : ctx fs False None [] []) by (left; auto).
  destruct (proj1 (nat_doc limit64 items) _ _ _ (RR_simrel (cached fs ar n [] None) (inc_of fs (load_file fs (inc_fuel fs)) None) [] []
      (fun k p x y v x' Q E => cached_op n [] None k p x v x' E (inc_fuel fs) [] y Hc (room_init fs) Q)) ([], init_sh g) ([], init_sh g) o y) as (z1 & E1 & E2); [|exact E|].
  - split; [|intros f k v []]. split; [reflexivity|]. split; [apply IncSemProofs.same_refl|]. split; [exact HS|constructor].
  - rewrite E1 in Ev. injection Ev as _ ->. apply E2.
Qed.
(** A file that was loaded. *)
Lemma op_file g n path full items o y o' sh' : canon fs path = Some full -> ar full = Some (CObj items) ->
  ev_doc (cached fs ar n [full] (Some path)) limit64 items ([], init_sh g) = Some (o, y) ->
  parse_obj_file fs g path = (Ok o', sh') -> respects ar (sh_log sh').
Proof.
  intros Ef Ea E Rn. destruct (Des _ _ _ Ef Ea) as (text & (i & fe & He & Hr & _) & Wr). cbn [written] in Wr.
  assert (Ec : fe_canon fe = Some full) by (unfold canon in Ef; rewrite He in Ef; exact Ef).
  unfold parse_obj_file, open_file in Rn. rewrite He, Hr, Ec in Rn. set (sh2 := log_ev (EOpen (Some full)) (init_sh g)) in *.
  apply (run_ok_agr _ _ _ _ _ _ _ _ (@obj_stream_agr U (fun _ => False) fs (load_file fs (inc_fuel fs)) (Some path) limit64
      (fun d E => E) (fun d E => or_introl E) (load_wf fs (inc_fuel fs)) _ items text (mkst (Some path) text 1 1 [] sh2) Wr eq_refl eq_refl (okst_init (Some path) text sh2 (Forall_nil _)))) in Rn as (gl & Ev & _).
  assert (Rm : room fs [full] (inc_fuel fs)).
  { split; [repeat constructor; auto|]. split; [|unfold inc_fuel; cbn; lia]. intros x [<-|[]]. eapply canon_in; eauto. }
  assert (HS : SI' [] [full] sh2) by (split; [reflexivity|split; [apply LI_open; auto; apply LI_init|exact I]]).
  assert (Hc : ctx fs False (Some path) [] [full]) by (right; right; eauto).
  destruct (proj1 (nat_doc limit64 items) _ _ _ (RR_simrel (cached fs ar n [full] (Some path)) (inc_of fs (load_file fs (inc_fuel fs)) (Some path)) [] [full]
      (fun k p x y v x' Q E => cached_op n [full] (Some path) k p x v x' E (inc_fuel fs) [] y Hc Rm Q)) ([], init_sh g) ([], sh2) o y) as (z1 & E1 & E2); [|exact E|].
  - split; [|apply fits_one; [intros f k v []|reflexivity]]. split; [reflexivity|]. split; [split; reflexivity|]. split; [exact HS|constructor].
  - rewrite E1 in Ev. injection Ev as _ ->. apply E2.
Qed.
End Op.
