(** Proofs about the macros' substitutions. *)
From Coq Require Import List Arith NArith Bool String.
From Verif Require Import MacroModel MacroSpec.
Import ListNotations.
Local Open Scope string_scope.
Local Open Scope list_scope.

Scheme ty_m := Induction for ty Sort Prop
  with qself_m := Induction for qself Sort Prop
  with tys_m := Induction for tys Sort Prop
  with segs_m := Induction for segs Sort Prop
  with pargs_m := Induction for pargs Sort Prop
  with args_m := Induction for args Sort Prop
  with arg_m := Induction for arg Sort Prop
  with bounds_m := Induction for bounds Sort Prop
  with bound_m := Induction for bound Sort Prop.
Combined Scheme syn_ind from ty_m, qself_m, tys_m, segs_m, pargs_m, args_m, arg_m, bounds_m, bound_m.

Ltac spl := repeat match goal with H : _ && _ = true |- _ => apply andb_true_iff in H; destruct H end.

Section Gen.
  Variables (V : Type) (M : meaning V) (st : strategy).
  Variable ri : option ty.                                  (* what replaces [_] *)
  Variable rp : bool * qself * segs.                        (* what replaces the paths *)
  Variables (hl : string -> bool) (hp ex : bool -> qself -> segs -> bool).
  Hypothesis Hty : forall t, st_ty st t = match t with TInfer => ri | _ => None end.
  Hypothesis Hpath : forall l q p, st_path st l q p = if hp l q p then Some rp else None.
  Variable f : string -> string.
  Hypothesis Hf : forall s, sub_lt st s = f s.
  Hypothesis Hlt : forall s, hl s = false -> f s = s.
  Hypothesis Hex : forall l q p, ex l q p = true -> hp l q p = true.
  Let hi := match ri with Some _ => true | None => false end.
  Let vi := match ri with Some r => den M plain r | None => me_infer V M end.
  Let M' := reading M vi f.
  Let kn (l : bool) (q : qself) (p : segs) : option V :=
    if ex l q p then Some (den M plain (let '(a, b, c) := rp in TPath a b c)) else None.

  Lemma lts_same lts : forallb (fun s => negb (hl s)) lts = true -> map (fun s => me_life V M (f s)) lts = map (me_life V M) lts.
  Proof.
    induction lts as [|s r IH]; [reflexivity|]. cbn. intros H. spl. rewrite Hlt by (destruct (hl s); [discriminate|reflexivity]).
    f_equal. apply IH. assumption.
  Qed.
  (** without placeholders both meanings agree *)
  Lemma clean_den :
    (forall t, clean hi hl hp t = true -> den M' kn t = den M plain t) /\
    (forall q, clean_q hi hl hp q = true -> den_q M' kn q = den_q M plain q) /\
    (forall t, clean_tys hi hl hp t = true -> den_tys M' kn t = den_tys M plain t) /\
    (forall p, clean_segs hi hl hp p = true -> den_segs M' kn p = den_segs M plain p) /\
    (forall a, clean_pargs hi hl hp a = true -> den_pargs M' kn a = den_pargs M plain a) /\
    (forall a, clean_args hi hl hp a = true -> den_args M' kn a = den_args M plain a) /\
    (forall a, clean_arg hi hl hp a = true -> den_arg M' kn a = den_arg M plain a) /\
    (forall a, clean_bounds hi hl hp a = true -> den_bounds M' kn a = den_bounds M plain a) /\
    (forall a, clean_bound hi hl hp a = true -> den_bound M' kn a = den_bound M plain a).
  Proof.
    apply syn_ind; intros; simpl in *; spl;
      try reflexivity;
      try (unfold M', reading; cbn [me_path me_tuple me_infer me_other me_qnone me_qas me_nil me_cons me_seg me_none me_angle me_paren me_type me_life me_constraint me_assoc me_const me_trait];
           fold (reading M vi f); fold M'; repeat match goal with H : ?c = true -> _ = _, K : ?c = true |- _ => rewrite (H K) end; reflexivity).
    - unfold kn at 1. destruct (ex lead q p) eqn:E; [apply Hex in E; rewrite E in *; discriminate|]. unfold plain at 1.
      rewrite H, H0 by assumption. reflexivity.
    - unfold M', reading. cbn. unfold vi, hi in *. destruct ri; [discriminate|reflexivity].
    - unfold M' at 1, reading. cbn. fold (reading M vi f); fold M'. rewrite H by assumption. f_equal. apply lts_same. assumption.
    - unfold M', reading. cbn. rewrite Hlt by (destruct (hl s); [discriminate|reflexivity]). reflexivity.
    - unfold M', reading. cbn. rewrite Hlt by (destruct (hl s); [discriminate|reflexivity]). reflexivity.
  Qed.
  Lemma sub_den :
    (forall t, open hi hl hp ex t = true -> den M plain (sub_ty st t) = den M' kn t) /\
    (forall q : qself, True) /\
    (forall t, open_tys hi hl hp ex t = true -> den_tys M plain (sub_tys st t) = den_tys M' kn t) /\
    (forall p, open_segs hi hl hp ex p = true -> den_segs M plain (sub_segs st p) = den_segs M' kn p) /\
    (forall a, open_pargs hi hl hp ex a = true -> den_pargs M plain (match a with PAAngle l => PAAngle (sub_args st l) | _ => a end) = den_pargs M' kn a) /\
    (forall a, open_args hi hl hp ex a = true -> den_args M plain (sub_args st a) = den_args M' kn a) /\
    (forall a, open_arg hi hl hp ex a = true -> den_arg M plain (sub_arg st a) = den_arg M' kn a) /\
    (forall a, open_bounds hi hl hp ex a = true -> den_bounds M plain (sub_bounds st a) = den_bounds M' kn a) /\
    (forall a, open_bound hi hl hp ex a = true -> den_bound M plain (sub_bound st a) = den_bound M' kn a).
  Proof.
    destruct clean_den as (C1 & C2 & C3 & C4 & C5 & C6 & C7 & C8 & C9).
    apply syn_ind; intros; try exact I;
      simpl in *; rewrite ?Hty, ?Hf; spl;
      try (simpl;
           repeat match goal with H : ?c = true -> _ = _, K : ?c = true |- _ => rewrite (H K) end; reflexivity).
    - rewrite Hpath. destruct (hp lead q p) eqn:E.
      + destruct rp as [[a b] c] eqn:R. cbn [den]. unfold kn. rewrite H1. reflexivity.
      + spl. cbn [den]. unfold kn at 1. destruct (ex lead q p) eqn:X; [apply Hex in X; congruence|]. unfold plain at 1.
        rewrite H0 by assumption. rewrite <- (C2 q) by assumption. reflexivity.
    - destruct ri as [r|] eqn:R.
      + cbn [den]. unfold M', reading, vi. cbn. reflexivity.
      + cbn [den]. unfold M', reading, vi. cbn. reflexivity.
    - simpl. rewrite (C3 l) by assumption. f_equal. symmetry. apply lts_same. assumption.
    - rewrite (C3 l) by assumption. reflexivity.
    - cbn [den_bound]. unfold M', reading. cbn. rewrite Hlt by (destruct (hl s); [discriminate|reflexivity]). reflexivity.
  Qed.
End Gen.

Section Clean.
  Variables (st : strategy) (ri : option ty) (rp : bool * qself * segs).
  Variables (hl : string -> bool) (hp ex : bool -> qself -> segs -> bool).
  Hypothesis Hty : forall t, st_ty st t = match t with TInfer => ri | _ => None end.
  Hypothesis Hpath : forall l q p, st_path st l q p = if hp l q p then Some rp else None.
  Hypothesis Hlt : forall s, hl s = false -> sub_lt st s = s.
  Let hi := match ri with Some _ => true | None => false end.

  (** without placeholders nothing changes *)
  Lemma sub_clean :
    (forall t, clean hi hl hp t = true -> sub_ty st t = t) /\
    (forall q : qself, True) /\
    (forall t, clean_tys hi hl hp t = true -> sub_tys st t = t) /\
    (forall p, clean_segs hi hl hp p = true -> sub_segs st p = p) /\
    (forall a, clean_pargs hi hl hp a = true -> match a with PAAngle l => PAAngle (sub_args st l) | _ => a end = a) /\
    (forall a, clean_args hi hl hp a = true -> sub_args st a = a) /\
    (forall a, clean_arg hi hl hp a = true -> sub_arg st a = a) /\
    (forall a, clean_bounds hi hl hp a = true -> sub_bounds st a = a) /\
    (forall a, clean_bound hi hl hp a = true -> sub_bound st a = a).
  Proof.
    apply syn_ind; intros; try exact I; simpl in *; rewrite ?Hty; spl;
      try (repeat match goal with H : ?c = true -> _ = _, K : ?c = true |- _ => rewrite (H K) end; reflexivity).
    - rewrite Hpath. destruct (hp lead q p); [discriminate|]. rewrite H0 by assumption. reflexivity.
    - unfold hi in *. destruct ri; [discriminate|reflexivity].
    - rewrite Hlt by (destruct (hl s); [discriminate|reflexivity]). reflexivity.
  Qed.

  Hypothesis Hri : forall r, ri = Some r -> clean hi hl hp r = true.
  Hypothesis Hrp : clean hi hl hp (let '(a, b, c) := rp in TPath a b c) = true.
  Hypothesis Hnew : forall s, hl (sub_lt st s) = false.
  Hypothesis Hstable : forall l q p, hp l q (sub_segs st p) = hp l q p.
  (** nothing is left *)
  Lemma clean_sub :
    (forall t, open hi hl hp ex t = true -> clean hi hl hp (sub_ty st t) = true) /\
    (forall q : qself, True) /\
    (forall t, open_tys hi hl hp ex t = true -> clean_tys hi hl hp (sub_tys st t) = true) /\
    (forall p, open_segs hi hl hp ex p = true -> clean_segs hi hl hp (sub_segs st p) = true) /\
    (forall a, open_pargs hi hl hp ex a = true -> clean_pargs hi hl hp (match a with PAAngle l => PAAngle (sub_args st l) | _ => a end) = true) /\
    (forall a, open_args hi hl hp ex a = true -> clean_args hi hl hp (sub_args st a) = true) /\
    (forall a, open_arg hi hl hp ex a = true -> clean_arg hi hl hp (sub_arg st a) = true) /\
    (forall a, open_bounds hi hl hp ex a = true -> clean_bounds hi hl hp (sub_bounds st a) = true) /\
    (forall a, open_bound hi hl hp ex a = true -> clean_bound hi hl hp (sub_bound st a) = true).
  Proof.
    apply syn_ind; intros; try exact I; simpl in *; rewrite ?Hty; spl;
      try (repeat (apply andb_true_iff; split); auto; fail).
    - rewrite Hpath. destruct (hp lead q p) eqn:E.
      + destruct rp as [[a b] c] eqn:R. exact Hrp.
      + spl. simpl. rewrite Hstable, E. simpl. apply andb_true_iff; split; auto.
    - destruct ri as [r|] eqn:R; [apply (Hri r); reflexivity|]. reflexivity.
    - rewrite Hnew. reflexivity.
  Qed.
End Clean.

Lemma reading_id {V} (M : meaning V) : reading M (me_infer V M) (fun s => s) = M.
Proof. destruct M. reflexivity. Qed.
Lemma is_like d l q p : is_driver_field d q p = like_field d l q p.
Proof. reflexivity. Qed.
Lemma exact_like d l q p : exact_field d l q p = true -> like_field d l q p = true.
Proof.
  destruct l, q; try discriminate; destruct p as [|i [| |] [|j [| |] [|]]]; try discriminate. cbn. auto.
Qed.
Lemma like_stable st d l q p : like_field d l q (sub_segs st p) = like_field d l q p.
Proof. destruct q; [|reflexivity]. destruct p as [|i a [|j b [|]]]; reflexivity. Qed.

(** ** The driver parameter *)
Lemma last_seg_list p i a : last_seg p = Some (i, a) <-> exists s, seg_list p = s ++ [(i, a)].
Proof.
  split.
  - revert i a. induction p as [|j b r IH]; intros i0 a0 H.
    + discriminate.
    + destruct r as [|k c r'].
      * cbn in H. injection H as <- <-. exists []. reflexivity.
      * destruct (IH i0 a0 H) as [s E]. exists ((j, b) :: s). cbn [seg_list] in *. cbn. rewrite E. reflexivity.
  - intros [s E]. revert p E. induction s as [|x s IH]; intros p E.
    + destruct p as [|j b [|k c r]]; try discriminate. cbn in E. injection E as -> ->. reflexivity.
    + destruct p as [|j b r]; [discriminate|]. cbn in E. injection E as _ E. specialize (IH r E).
      destruct r as [|k c r']; [destruct s; discriminate|]. exact IH.
Qed.
Lemma lifetimes_list l : lifetimes l = flat_map (fun a => match a with ALife s => [s] | _ => [] end) (arg_list l).
Proof.
  induction l as [|a r IH]; [reflexivity|].
  destruct a; cbn; rewrite IH; reflexivity.
Qed.
Lemma no_lives (l : list arg) : flat_map (fun a => match a with ALife s => [s] | _ => [] end) l = [] <-> forall x, ~ In (ALife x) l.
Proof.
  induction l as [|a r IH]; cbn; [split; auto|]. destruct a; cbn; rewrite ?IH; split; intros H; try discriminate.
  all: try (intros x [E|K]; [discriminate|exact (H x K)]).
  all: try (intros x K; apply (H x); right; exact K).
  exfalso. apply (H s). left. reflexivity.
Qed.
Lemma only_life_ok l s : lifetimes l = [s] <-> only_life l s.
Proof.
  rewrite lifetimes_list. unfold only_life. generalize (arg_list l). intros L. split.
  - intros H. induction L as [|x r IH]; [discriminate|]. destruct x; cbn in H;
      try (destruct (IH H) as (u & v & E & N); eexists (_ :: u), v; rewrite E; split; [reflexivity|];
           intros y [K|K]; [discriminate|exact (N y K)]).
    injection H as -> H. exists [], r. split; [reflexivity|]. apply no_lives. exact H.
  - intros (u & v & -> & N). rewrite flat_map_app. cbn.
    rewrite (proj2 (no_lives u)), (proj2 (no_lives v)); [reflexivity| |]; intros x K; apply (N x), in_or_app; auto.
Qed.
Lemma extract_bounds_ok i b d : extract_bounds i b = Some d <-> exists l s, driver_bound b (PAAngle l) /\ only_life l s /\ d = mk_gdriver i s.
Proof.
  revert d. induction b as [|x r IH]; intros d.
  - cbn. split; [discriminate|]. intros (l & s & H & _). inversion H.
  - assert (Skip : forall l p, (forall s y, seg_list p <> s ++ [("Driver", y)]) ->
      (extract_bounds i r = Some d <-> exists l0 s, driver_bound (bcons (BTrait l p) r) (PAAngle l0) /\ only_life l0 s /\ d = mk_gdriver i s)).
    { intros l p N. rewrite IH. split; intros (l0 & s & H & K); exists l0, s; (split; [|exact K]).
      - apply db_trait; assumption.
      - inversion H; subst; [exfalso; eapply N; eassumption|assumption]. }
    destruct x as [l p|s].
    + cbn [extract_bounds]. destruct (last_seg p) as [[j a]|] eqn:E.
      * destruct (String.eqb_spec j "Driver") as [->|Nj].
        -- assert (Q := proj1 (last_seg_list p _ _) E). destruct Q as [u Q].
           assert (U : forall a0, driver_bound (bcons (BTrait l p) r) a0 -> a0 = a).
           { intros a0 H. inversion H; subst.
             - rewrite Q in H4. apply app_inj_tail in H4. destruct H4 as [_ H4]. congruence.
             - exfalso. eapply H4. exact Q. }
           destruct a as [|l0|ts].
           ++ split; [discriminate|]. intros (l0 & s & H & _). discriminate (U _ H).
           ++ split.
              ** destruct (lifetimes l0) as [|s [|]] eqn:L; try discriminate. intros X. injection X as <-.
                 exists l0, s. split; [eapply db_here; exact Q|]. split; [apply only_life_ok, L|reflexivity].
              ** intros (l1 & s & H & O & ->). assert (X := U _ H). injection X as ->.
                 apply only_life_ok in O. rewrite O. reflexivity.
           ++ split; [discriminate|]. intros (l0 & s & H & _). discriminate (U _ H).
        -- apply Skip. intros s y Q. assert (X : last_seg p = Some ("Driver", y)) by (apply last_seg_list; exists s; exact Q). congruence.
      * apply Skip. intros s y Q. assert (X : last_seg p = Some ("Driver", y)) by (apply last_seg_list; exists s; exact Q). congruence.
    + cbn [extract_bounds]. rewrite IH. split; intros (l0 & s0 & H & K); exists l0, s0; (split; [|exact K]).
      * apply db_life. exact H.
      * inversion H; subst. assumption.
Qed.
Lemma marked_ok at_ : existsb (fun a => attr_is a "driver") at_ = true <-> marked at_.
Proof.
  rewrite existsb_exists. unfold marked, attr_is. split.
  - intros (a & I & H). apply andb_true_iff in H. destruct H as [P H]. apply String.eqb_eq in P.
    destruct (at_tokens a) as [toks|] eqn:T; [|discriminate]. apply existsb_exists in H. destruct H as (x & Ix & E).
    apply String.eqb_eq in E. subst x. exists a, toks. auto.
  - intros (a & toks & I & P & T & D). exists a. split; [exact I|]. rewrite P, T. cbn. apply existsb_exists.
    exists "driver". split; [exact D|reflexivity].
Qed.
