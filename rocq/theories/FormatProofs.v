(** * FormatProofs: the formatter is total and ignores ids. *)
From Verif Require Export Format ValueSpec.
From Coq Require String.
Import String.StringSyntax.
Open Scope N_scope.

(** ** The text as a total function (proved equal to the model below). *)
Fixpoint fmt (ind : N) (v : value) {struct v} : str :=
  match v with
  | VNull => lit "null"
  | VBool true => lit "true"
  | VBool false => lit "false"
  | VInt z => Z_to_dec z
  | VFrac q => format_frac q
  | VStr s => format_str s
  | VArr (MkArr _ _ vs) =>
      match vs with
      | [] => lit "[]"
      | [v] => lit "[" ++ fmt ind v ++ lit "]"
      | _ => lit "[" ++ [c_nl] ++
             concat (map (fun v => indent ind ++ fmt (ind + 4) v ++ [c_nl]) vs) ++
             indent (ind - 4) ++ lit "]"
      end
  | VTup (MkTup _ _ vs) =>
      match vs with
      | [] => lit "()"
      | [v] => lit "(" ++ fmt ind v ++ lit ")"
      | _ => lit "(" ++ [c_nl] ++
             concat (map (fun v => indent ind ++ fmt (ind + 4) v ++ [c_nl]) vs) ++
             indent (ind - 4) ++ lit ")"
      end
  | VObj o =>
      match o with
      | MkObj _ [] None => lit "{}"
      | _ => lit "{" ++ [c_nl] ++ fmt_body ind o ++ indent (ind - 4) ++ lit "}"
      end
  end
(** The lines of an Obj without its braces. *)
with fmt_body (ind : N) (o : obj) {struct o} : str :=
  match o with
  | MkObj _ ps par =>
      match par with
      | Some p =>
          indent ind ++ lit "^: " ++
          (match p with
           | MkObj _ [] None => lit "{}"
           | _ => lit "{" ++ [c_nl] ++ fmt_body (ind + 4) p ++ indent ind ++ lit "}"
           end) ++ [c_nl]
      | None => []
      end ++
      concat (map (fun p => match p with (f, v) =>
                     indent ind ++ f ++ lit ": " ++ fmt (ind + 4) v ++ [c_nl] end) ps)
  end.

Lemma concat_opt_map {A} (f : A -> option str) (g : A -> str) l :
  Forall (fun x => f x = Some (g x)) l -> concat_opt f l = Some (concat (map g l)).
Proof. induction 1; cbn; auto. rewrite H, IHForall. auto. Qed.

Lemma usub_some a b : b <= a -> usub a b = Some (a - b).
Proof. intros. unfold usub. destruct (N.leb_spec b a); auto; lia. Qed.

Lemma fmt_obj_unfold ind o : fmt ind (VObj o) =
  match o with
  | MkObj _ [] None => lit "{}"
  | _ => lit "{" ++ [c_nl] ++ fmt_body ind o ++ indent (ind - 4) ++ lit "}"
  end.
Proof. reflexivity. Qed.

Lemma fmt_body_unfold ind id ps par : fmt_body ind (MkObj id ps par) =
  (match par with
   | Some p => indent ind ++ lit "^: " ++ fmt (ind + 4) (VObj p) ++ [c_nl]
   | None => []
   end) ++ concat (map (fun p => match p with (f, v) =>
                 indent ind ++ f ++ lit ": " ++ fmt (ind + 4) v ++ [c_nl] end) ps).
Proof.
  cbn [fmt_body]. destruct par as [p|]; auto. rewrite fmt_obj_unfold.
  replace (ind + 4 - 4) with ind by lia. reflexivity.
Qed.

Lemma format_fmt :
  (forall v full ind, 4 <= ind -> format_value full ind v = Some (fmt ind v)) /\
  (forall o full ind, 4 <= ind \/ full = false ->
     format_obj full ind o = Some (if full then fmt ind (VObj o) else fmt_body ind o)).
Proof.
  apply value_obj_ind2; try (intros; reflexivity).
  - intros [] ? ? ?; reflexivity.
  - intros id t vs IH full ind Hi. destruct vs as [|v [|w vs]]; [reflexivity| |].
    + inversion IH; subst. cbn [format_value format_arr]. rewrite H1 by auto. reflexivity.
    + cbn [format_value format_arr].
      assert (E : concat_opt (fun v => opt_bind (format_value true (ind + INDENT_STEP) v)
                   (fun f => Some (indent ind ++ f ++ [c_nl]))) (v :: w :: vs) =
                 Some (concat (map (fun v => indent ind ++ fmt (ind + 4) v ++ [c_nl])
                                   (v :: w :: vs)))).
      { apply concat_opt_map. rewrite Forall_forall in *. intros x Hx. unfold INDENT_STEP.
        rewrite (IH x Hx) by lia. reflexivity. }
      rewrite E. cbn [opt_bind]. replace (ind =? 0) with false by (symmetry; apply N.eqb_neq; lia).
      rewrite usub_some by (unfold INDENT_STEP; lia). cbn [opt_bind fmt].
      rewrite <- ?app_assoc. reflexivity.
  - intros id t vs IH full ind Hi. destruct vs as [|v [|w vs]]; [reflexivity| |].
    + inversion IH; subst. cbn [format_value format_tup]. rewrite H1 by auto. reflexivity.
    + cbn [format_value format_tup].
      assert (E : concat_opt (fun v => opt_bind (format_value true (ind + INDENT_STEP) v)
                   (fun f => Some (indent ind ++ f ++ [c_nl]))) (v :: w :: vs) =
                 Some (concat (map (fun v => indent ind ++ fmt (ind + 4) v ++ [c_nl])
                                   (v :: w :: vs)))).
      { apply concat_opt_map. rewrite Forall_forall in *. intros x Hx. unfold INDENT_STEP.
        rewrite (IH x Hx) by lia. reflexivity. }
      rewrite E. cbn [opt_bind].
      rewrite usub_some by (unfold INDENT_STEP; lia). cbn [opt_bind fmt].
      rewrite <- ?app_assoc. reflexivity.
  - intros o IH full ind Hi. cbn [format_value]. rewrite IH by auto. reflexivity.
  - intros id ps par IH IHp full ind Hi.
    assert (E : concat_opt (fun p => match p with
                 | (field, v) => opt_bind (format_value true (ind + INDENT_STEP) v) (fun f =>
                     Some (indent ind ++ field ++ lit ": " ++ f ++ [c_nl])) end) ps =
             Some (concat (map (fun p => match p with (f, v) =>
                     indent ind ++ f ++ lit ": " ++ fmt (ind + 4) v ++ [c_nl] end) ps))).
    { apply concat_opt_map. rewrite Forall_map in IH. rewrite Forall_forall in *.
      intros [f x] Hx. unfold INDENT_STEP. rewrite (IH _ Hx) by (cbn; lia). reflexivity. }
    assert (EP : match par with
                 | Some p => opt_bind (format_obj true (ind + INDENT_STEP) p) (fun f =>
                     Some (indent ind ++ lit "^: " ++ f ++ [c_nl]))
                 | None => Some []
                 end = Some (match par with
                             | Some p => indent ind ++ lit "^: " ++ fmt (ind + 4) (VObj p) ++ [c_nl]
                             | None => []
                             end)).
    { destruct par as [p|]; auto. rewrite (IHp p eq_refl) by (unfold INDENT_STEP; lia). reflexivity. }
    assert (EB : fmt_body ind (MkObj id ps par) =
      (match par with
       | Some p => indent ind ++ lit "^: " ++ fmt (ind + 4) (VObj p) ++ [c_nl]
       | None => []
       end) ++ concat (map (fun p => match p with (f, v) =>
                     indent ind ++ f ++ lit ": " ++ fmt (ind + 4) v ++ [c_nl] end) ps)).
    { apply fmt_body_unfold. }
    destruct ps as [|p0 ps'].
    + destruct par as [p|].
      2: { destruct full; reflexivity. }
      cbn [format_obj]. cbn [format_obj] in EP. rewrite EP. cbn [opt_bind concat_opt].
      rewrite (fmt_obj_unfold ind (MkObj id [] (Some p))), EB. cbn [map concat]. rewrite ?app_nil_r.
      destruct full.
      * destruct Hi as [Hi|]; [|discriminate].
        rewrite usub_some by (unfold INDENT_STEP; lia). cbn [opt_bind]. rewrite <- ?app_assoc. reflexivity.
      * cbn [app]. rewrite ?app_nil_r. reflexivity.
    + cbn [format_obj]. rewrite EP. cbn [opt_bind]. rewrite E. cbn [opt_bind].
      rewrite (fmt_obj_unfold ind (MkObj id (p0 :: ps') par)), EB.
      destruct full.
      * destruct Hi as [Hi|]; [|discriminate].
        rewrite usub_some by (unfold INDENT_STEP; lia). cbn [opt_bind]. rewrite <- ?app_assoc. reflexivity.
      * reflexivity.
Qed.

Lemma write_to_string_fmt o : write_to_string o = Some (fmt_body 0 o).
Proof. apply (proj2 format_fmt o false 0); auto. Qed.
Lemma value_display_fmt v : value_display v = Some (fmt 4 v).
Proof. apply (proj1 format_fmt); reflexivity. Qed.
Lemma obj_display_fmt o : obj_display o = Some (fmt 4 (VObj o)).
Proof. apply (proj2 format_fmt o true 4); left; reflexivity. Qed.

(** The text does not depend on ids. *)
Lemma fmt_erase :
  (forall v ind, fmt ind (erase v) = fmt ind v) /\
  (forall o ind, fmt_body ind (erase_obj o) = fmt_body ind o /\
                 fmt ind (VObj (erase_obj o)) = fmt ind (VObj o)).
Proof.
  assert (LE : forall vs, Forall (fun v => forall ind, fmt ind (erase v) = fmt ind v) vs ->
    forall ind, map (fun v => indent ind ++ fmt (ind + 4) v ++ [c_nl]) (map erase vs) =
                map (fun v => indent ind ++ fmt (ind + 4) v ++ [c_nl]) vs).
  { intros vs H ind. rewrite map_map. apply map_ext_Forall. eapply Forall_impl; [|exact H].
    cbn; intros ? ->; auto. }
  apply value_obj_ind2; try (intros; reflexivity).
  - intros id t vs IH ind. specialize (LE _ IH ind).
    destruct vs as [|v [|w vs]]; [reflexivity| |]; cbn [erase map fmt].
    + inversion IH; subst. rewrite H1; auto.
    + cbn [map] in LE. rewrite LE. auto.
  - intros id t vs IH ind. specialize (LE _ IH ind).
    destruct vs as [|v [|w vs]]; [reflexivity| |]; cbn [erase map fmt].
    + inversion IH; subst. rewrite H1; auto.
    + cbn [map] in LE. rewrite LE. auto.
  - intros o IH ind. cbn [erase]. apply IH.
  - intros id ps par IH IHp ind.
    assert (B : forall ind, fmt_body ind (erase_obj (MkObj id ps par)) = fmt_body ind (MkObj id ps par)).
    { clear ind; intro ind. cbn [erase_obj]. rewrite !fmt_body_unfold. f_equal.
      - destruct par as [p|]; auto. destruct (IHp p eq_refl (ind + 4)) as [A A'].
        rewrite A'. auto.
      - rewrite map_map. f_equal. apply map_ext_Forall. rewrite Forall_map in IH.
        eapply Forall_impl; [|exact IH]. intros [f v] Hv. cbn in *. rewrite Hv. auto. }
    split; [apply B|]. rewrite !fmt_obj_unfold, B. cbn [erase_obj].
    destruct ps as [|[? ?] ?], par; auto.
Qed.

Lemma fmt_same v w ind : erase v = erase w -> fmt ind v = fmt ind w.
Proof. intros E. rewrite <- (proj1 fmt_erase v), <- (proj1 fmt_erase w), E. auto. Qed.
Lemma fmt_body_same o p ind : erase_obj o = erase_obj p -> fmt_body ind o = fmt_body ind p.
Proof.
  intros E. rewrite <- (proj1 (proj2 fmt_erase o ind)), <- (proj1 (proj2 fmt_erase p ind)), E. auto.
Qed.
