(** * TypeSpec: independent specification of the type order, and the theory of Types.v. *)
From Verif Require Export Types.
From Coq Require Import Permutation.
Open Scope N_scope.

(** ** Specification *)

(** [le_ty a b]: [b] is a specialisation of [a], i.e. [b] is [a] with some occurrences of Any
    replaced by arbitrary types. *)
Inductive le_ty : ty -> ty -> Prop :=
| le_any t : le_ty TAny t
| le_null : le_ty TNull TNull
| le_bool : le_ty TBool TBool
| le_int : le_ty TInt TInt
| le_frac : le_ty TFrac TFrac
| le_str : le_ty TStr TStr
| le_obj : le_ty TObj TObj
| le_arr a b : le_ty a b -> le_ty (TArr a) (TArr b)
| le_tup l m : Forall2 le_ty l m -> le_ty (TTup l) (TTup m).

(** [contains_any t]: Any occurs somewhere in [t]. *)
Inductive contains_any : ty -> Prop :=
| ca_any : contains_any TAny
| ca_arr t : contains_any t -> contains_any (TArr t)
| ca_tup t ts : In t ts -> contains_any t -> contains_any (TTup ts).

(** Least common specialisation of two types, and of a list of types. *)
Definition common_spec (a b t : ty) : Prop := le_ty a t /\ le_ty b t.
Definition least_spec (a b t : ty) : Prop :=
  common_spec a b t /\ forall u, common_spec a b u -> le_ty t u.
Definition common_spec_all (ts : list ty) (t : ty) : Prop := Forall (fun a => le_ty a t) ts.
Definition least_spec_all (ts : list ty) (t : ty) : Prop :=
  common_spec_all ts t /\ forall u, common_spec_all ts u -> le_ty t u.

(** ** Proofs *)

Section ty_ind'.
  Variable P : ty -> Prop.
  Hypothesis Hany : P TAny.
  Hypothesis Hnull : P TNull.
  Hypothesis Hbool : P TBool.
  Hypothesis Hint : P TInt.
  Hypothesis Hfrac : P TFrac.
  Hypothesis Hstr : P TStr.
  Hypothesis Harr : forall t, P t -> P (TArr t).
  Hypothesis Htup : forall ts, Forall P ts -> P (TTup ts).
  Hypothesis Hobj : P TObj.
  Fixpoint ty_ind' (t : ty) : P t :=
    match t with
    | TAny => Hany | TNull => Hnull | TBool => Hbool | TInt => Hint | TFrac => Hfrac
    | TStr => Hstr | TObj => Hobj
    | TArr t => Harr t (ty_ind' t)
    | TTup ts => Htup ts ((fix go (l : list ty) : Forall P l :=
                             match l with
                             | [] => Forall_nil _
                             | x :: l' => Forall_cons _ (ty_ind' x) (go l')
                             end) ts)
    end.
End ty_ind'.

Lemma Forall2_len {A B} (R : A -> B -> Prop) l m : Forall2 R l m -> length l = length m.
Proof. induction 1; cbn; auto. Qed.

Lemma le_ty_refl t : le_ty t t.
Proof.
  induction t using ty_ind'; try constructor; auto.
  induction H; constructor; auto.
Qed.

Lemma le_ty_trans a b c : le_ty a b -> le_ty b c -> le_ty a c.
Proof.
  revert b c; induction a using ty_ind'; intros b c H1 H2; inversion H1; subst; auto;
    try solve [inversion H2; subst; constructor; eauto].
  inversion H2; subst. constructor.
  clear H1 H2. revert m m0 H3 H4. induction H; intros m1 m2 A B; inversion A; subst;
      inversion B; subst; constructor; eauto.
Qed.

Lemma le_ty_antisym a b : le_ty a b -> le_ty b a -> a = b.
Proof.
  revert b; induction a using ty_ind'; intros b H1 H2; inversion H1; subst; auto;
    inversion H2; subst; auto.
  - f_equal; auto.
  - f_equal. inversion H1 as [| | | | | | | |? ? A]; inversion H2 as [| | | | | | | |? ? B]; subst.
    clear - H A B. revert m A B. induction H; intros m A B; inversion A; subst;
      inversion B; subst; auto. f_equal; auto.
Qed.

Lemma has_any_iff t : has_any t = true <-> contains_any t.
Proof.
  induction t using ty_ind'; cbn; split; intro H0; try discriminate; try (inversion H0; fail);
    try constructor; auto.
  - apply IHt; auto.
  - inversion H0; subst. apply IHt; auto.
  - apply existsb_exists in H0 as (x & Hi & Hx).
    rewrite Forall_forall in H. econstructor; eauto. apply H; auto.
  - inversion H0; subst. apply existsb_exists. rewrite Forall_forall in H.
    exists t; split; auto. apply H; auto.
Qed.

(** A type without Any has no proper specialisation. *)
Lemma no_any_maximal t u : has_any t = false -> le_ty t u -> u = t.
Proof.
  revert u; induction t using ty_ind'; cbn; intros u Ha Hl; inversion Hl; subst; auto;
    try discriminate.
  - f_equal; auto.
  - f_equal. clear Hl. revert m H1 Ha. induction H; intros m A Ha; inversion A; subst; auto.
    cbn in Ha. apply orb_false_iff in Ha as [? ?]. f_equal; auto.
Qed.

Lemma ty_is_iff a b : ty_is a b = true <-> a = b.
Proof.
  revert b; induction a using ty_ind'; intros b; destruct b; cbn; split; intro E;
    try discriminate; auto.
  - f_equal; apply IHa; auto.
  - inversion E; subst; apply IHa; auto.
  - destruct (Nat.eqb_spec (length ts) (length ts0)) as [L|L]; cbn in E; [|discriminate].
    f_equal. revert ts0 L E. induction H; intros [|y l2] L E; cbn in *; auto; try discriminate.
    apply andb_true_iff in E as [E1 E2]. f_equal; auto. apply H; auto.
  - inversion E; subst. rewrite Nat.eqb_refl. cbn. clear E.
    induction H; cbn; auto. apply andb_true_iff; split; auto. apply H; auto.
Qed.

Lemma ty_eqb_iff a b : ty_eqb a b = true <-> exists t, common_spec a b t.
Proof.
  unfold common_spec. revert b; induction a using ty_ind'; intros b.
  1: { split; [intros _|destruct b; auto]. exists b; split; [constructor|apply le_ty_refl]. }
  all: destruct b; cbn; split; intro E; try discriminate; auto;
    try (destruct E as (t & E1 & E2); inversion E1; subst; inversion E2; fail);
    try (eexists; split; [apply le_ty_refl|constructor]; fail);
    try (eexists; split; [constructor|apply le_ty_refl]; fail);
    try (eexists; split; apply le_ty_refl; fail).
  - apply IHa in E as (t & ? & ?). exists (TArr t); split; constructor; auto.
  - destruct E as (t & E1 & E2). inversion E1; subst. inversion E2; subst. apply IHa; eauto.
  - assert (E' : exists ms, Forall2 le_ty ts ms /\ Forall2 le_ty ts0 ms).
    { revert ts0 E. induction H; intros [|y l2] E; cbn in E; try discriminate.
      - exists []; split; constructor.
      - apply andb_true_iff in E as [E1 E2]. apply H in E1 as (t & ? & ?).
        apply IHForall in E2 as (ms & ? & ?). exists (t :: ms); split; constructor; auto. }
    destruct E' as (ms & ? & ?). exists (TTup ms); split; constructor; auto.
  - destruct E as (t & E1 & E2). inversion E1 as [| | | | | | | |? m A]; subst.
    inversion E2 as [| | | | | | | |? ? B]; subst. clear E1 E2.
    revert ts0 m A B. induction H; intros l2 m A B; inversion A; subst; inversion B; subst;
      cbn; auto. apply andb_true_iff; split; [apply H; eauto|eauto].
Qed.

Lemma ty_eqb_refl a : ty_eqb a a = true.
Proof. apply ty_eqb_iff. exists a; split; apply le_ty_refl. Qed.

Lemma ty_eqb_sym a b : ty_eqb a b = ty_eqb b a.
Proof.
  apply eq_true_iff_eq. rewrite !ty_eqb_iff. unfold common_spec. firstorder.
Qed.

(** The inner zip of [most_specific] on tuples. *)
Definition ms_zip : list ty -> list ty -> bool -> option (list ty * bool) :=
  fix zip (l1 l2 : list ty) (any : bool) {struct l1} : option (list ty * bool) :=
    match l1, l2 with
    | t1 :: l1', t2 :: l2' =>
        match most_specific t1 t2 with
        | Some (t, any1) =>
            match zip l1' l2' (if negb any && any1 then any1 else any) with
            | Some (ts, any2) => Some (t :: ts, any2)
            | None => None
            end
        | None => None
        end
    | _, _ => Some ([], any)
    end.

Lemma le_any_inv t : le_ty t TAny -> t = TAny.
Proof. inversion 1; auto. Qed.

Theorem most_specific_spec a b :
  match most_specific a b with
  | Some (t, f) => least_spec a b t /\ f = has_any t
  | None => ~ exists t, common_spec a b t
  end.
Proof.
  unfold least_spec, common_spec. revert b; induction a using ty_ind'; intros b.
  (* b = Any is the same in all cases *)
  all: destruct (ty_is b TAny) eqn:Eb;
    [apply ty_is_iff in Eb; subst b; cbn;
     split; [split; [split; [apply le_ty_refl|constructor]|intros u [? ?]; assumption]|reflexivity]|].
  1: { replace (most_specific TAny b) with (Some (b, has_any b)) by (destruct b; auto; discriminate).
       split; auto. split; [split; [constructor|apply le_ty_refl]|intros u [? ?]; auto]. }
  all: destruct b; try discriminate; cbn -[has_any];
    try (intros (u & E1 & E2); inversion E1; subst; inversion E2; fail);
    try (split; [split; [split; constructor|intros u [? ?]; assumption]|reflexivity]; fail).
  - specialize (IHa b). destruct (most_specific a b) as [[t f]|].
    + destruct IHa as [[[? ?] HL] Hf]. split; auto. split; [split; constructor; auto|].
      intros u [E1 E2]; inversion E1; subst; inversion E2; subst. constructor; auto.
    + intros (u & E1 & E2); inversion E1; subst; inversion E2; subst. apply IHa; eauto.
  - destruct (Nat.eqb_spec (length ts) (length ts0)) as [L|L].
    + fold ms_zip.
      assert (Z : forall any0,
        match ms_zip ts ts0 any0 with
        | Some (l, f) => Forall2 le_ty ts l /\ Forall2 le_ty ts0 l /\
              (forall m, Forall2 le_ty ts m -> Forall2 le_ty ts0 m -> Forall2 le_ty l m) /\
              f = any0 || existsb has_any l
        | None => ~ exists m, Forall2 le_ty ts m /\ Forall2 le_ty ts0 m
        end).
      { clear Eb. revert ts0 L. induction H; intros [|y l2] L any0; try discriminate; cbn.
        - repeat split; try constructor. intros; auto. rewrite orb_false_r; auto.
        - specialize (H y). destruct (most_specific x y) as [[t f]|].
          + destruct H as [[[? ?] HL] Hf].
            specialize (IHForall l2 ltac:(cbn in L; lia) (if negb any0 && f then f else any0)).
            destruct (ms_zip l l2 _) as [[ts2 f2]|].
            * destruct IHForall as (A & B & C & D).
              repeat split; try (constructor; auto; fail).
              -- intros m M1 M2. inversion M1; subst; inversion M2; subst. constructor; auto.
              -- subst f f2. cbn. destruct any0, (has_any t); auto.
            * intros (m & M1 & M2). inversion M1; subst; inversion M2; subst. apply IHForall; eauto.
          + intros (m & M1 & M2). inversion M1; subst; inversion M2; subst. apply H; eauto. }
      specialize (Z false). destruct (ms_zip ts ts0 false) as [[l f]|].
      * destruct Z as (A & B & C & D). split; [|exact D].
        split; [split; constructor; auto|]. intros u [E1 E2].
        inversion E1; subst; inversion E2; subst. constructor; auto.
      * intros (u & E1 & E2); inversion E1; subst; inversion E2; subst. apply Z; eauto.
    + intros (u & E1 & E2). inversion E1 as [| | | | | | | |? m A]; subst.
      inversion E2 as [| | | | | | | |? ? B]; subst.
      apply Forall2_len in A, B. congruence.
Qed.

Lemma least_spec_unique a b t u : least_spec a b t -> least_spec a b u -> t = u.
Proof. intros [H1 H2] [H3 H4]. apply le_ty_antisym; auto. Qed.

Lemma least_spec_all_unique ts t u : least_spec_all ts t -> least_spec_all ts u -> t = u.
Proof. intros [H1 H2] [H3 H4]. apply le_ty_antisym; auto. Qed.

Lemma most_specific_some a b t :
  (exists f, most_specific a b = Some (t, f)) <-> least_spec a b t.
Proof.
  pose proof (most_specific_spec a b) as H. split.
  - intros [f E]. rewrite E in H. apply H.
  - intros L. destruct (most_specific a b) as [[t' f]|].
    + destruct H as [H _]. rewrite (least_spec_unique _ _ _ _ L H). eauto.
    + exfalso; apply H. exists t. apply L.
Qed.

Lemma most_specific_eq_some a b t :
  least_spec a b t -> most_specific a b = Some (t, has_any t).
Proof.
  intros L. pose proof (most_specific_spec a b) as H.
  destruct (most_specific a b) as [[t' f]|].
  - destruct H as [H ->]. rewrite (least_spec_unique _ _ _ _ L H). auto.
  - exfalso; apply H. exists t. apply L.
Qed.

Lemma most_specific_eq_none a b :
  ~ (exists t, common_spec a b t) -> most_specific a b = None.
Proof.
  intros L. pose proof (most_specific_spec a b) as H.
  destruct (most_specific a b) as [[t' f]|]; auto.
  exfalso; apply L. exists t'. apply H.
Qed.

Lemma most_specific_comm a b : most_specific a b = most_specific b a.
Proof.
  pose proof (most_specific_spec a b) as H.
  destruct (most_specific a b) as [[t f]|].
  - destruct H as [[[H1 H2] H3] ->]. symmetry. apply most_specific_eq_some.
    split; [split; auto|]. intros u [? ?]. apply H3; split; auto.
  - symmetry. apply most_specific_eq_none. intros (t & ? & ?). apply H. exists t; split; auto.
Qed.

Lemma most_specific_idem a : most_specific a a = Some (a, has_any a).
Proof.
  apply most_specific_eq_some. split; [split; apply le_ty_refl|]. intros u [? ?]; auto.
Qed.

Lemma most_specific_any_l a : most_specific TAny a = Some (a, has_any a).
Proof. destruct a; auto. Qed.
Lemma most_specific_any_r a : most_specific a TAny = Some (a, has_any a).
Proof. destruct a; auto. Qed.

(** Lifted to options: [msj] is the partial join. *)
Definition msj (a b : option ty) : option ty :=
  match a, b with
  | Some a, Some b => match most_specific a b with Some (t, _) => Some t | None => None end
  | _, _ => None
  end.

Lemma msj_assoc a b c : msj a (msj b c) = msj (msj a b) c.
Proof.
  destruct a as [a|], b as [b|], c as [c|]; cbn; auto.
  2: { destruct (most_specific a b) as [[? ?]|]; auto. }
  pose proof (most_specific_spec b c) as H1. pose proof (most_specific_spec a b) as H2.
  unfold least_spec, common_spec in *.
  destruct (most_specific b c) as [[t f]|]; destruct (most_specific a b) as [[u g]|]; cbn; auto.
  - pose proof (most_specific_spec a t) as H3. pose proof (most_specific_spec u c) as H4.
    unfold least_spec, common_spec in *.
    destruct H1 as [[[? ?] M1] _], H2 as [[[? ?] M2] _].
    destruct (most_specific a t) as [[t1 f1]|]; destruct (most_specific u c) as [[t2 f2]|]; auto.
    + f_equal. destruct H3 as [[[? ?] M3] _], H4 as [[[? ?] M4] _].
      assert (le_ty t t2) by (apply M1; split; eauto using le_ty_trans).
      assert (le_ty u t1) by (apply M2; split; eauto using le_ty_trans).
      apply le_ty_antisym; [apply M3|apply M4]; split; eauto using le_ty_trans.
    + exfalso. destruct H3 as [[[? ?] M3] _].
      assert (le_ty u t1) by (apply M2; split; eauto using le_ty_trans).
      apply H4. exists t1. split; eauto using le_ty_trans.
    + exfalso. destruct H4 as [[[? ?] M4] _].
      assert (le_ty t t2) by (apply M1; split; eauto using le_ty_trans).
      apply H3. exists t2. split; eauto using le_ty_trans.
  - destruct H1 as [[[? ?] M1] _].
    pose proof (most_specific_spec a t) as H3. unfold least_spec, common_spec in *.
    destruct (most_specific a t) as [[t1 f1]|]; auto.
    exfalso. destruct H3 as [[[? ?] M3] _]. apply H2. exists t1. eauto using le_ty_trans.
  - destruct H2 as [[[? ?] M2] _].
    pose proof (most_specific_spec u c) as H4. unfold least_spec, common_spec in *.
    destruct (most_specific u c) as [[t1 f1]|]; auto.
    exfalso. destruct H4 as [[[? ?] M3] _]. apply H1. exists t1. eauto using le_ty_trans.
Qed.
