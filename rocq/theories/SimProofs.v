(** The simulator accepts exactly the satisfying executions. *)
From Coq Require Import List Arith NArith Bool Lia Ring Field.
From Verif Require Import FieldDef ArithModel ArithSpec ArithProofs GadgetModel GadgetSpec GadgetProofs.
Import ListNotations.

Section Sim.
  Variable F : Field.
  Add Field FFsim : (f_theory F).
  Open Scope f_scope.
  Definition nev (f : event F -> bool) (l : list (event F)) : nat := length (filter f l).
  Definition tally (s : simst) (evs : list (event F)) : simst := bump s (nev is_alloc evs) (nev is_gate evs) (nev is_lin evs).

  Lemma tally_cons s e evs : tally s (e :: evs) = tally (tally s [e]) evs.
  Proof. unfold tally. rewrite bump_bump. unfold nev. destruct e; cbn; reflexivity. Qed.
  Lemma sim_emits {A : Type} (p : G F F A) : forall s a s',
    simulate p s = Some (a, s') <->
    exists evs, emits p = Some (a, evs) /\ Forall ev_ok evs /\ s' = tally s evs.
  Proof.
    induction p as [a0| |[[[[a b] c] d]|] k IH|[v|] k IH|lc k IH|lc k IH]; intros s r s'; cbn [simulate emits].
    - split.
      + intros H. inversion H. subst. exists []. repeat split; auto. unfold tally, nev. cbn. now rewrite bump_0.
      + intros (evs & E & _ & ->). inversion E. subst. unfold tally, nev. cbn. now rewrite bump_0.
    - split; [discriminate|]. intros (evs & E & _). discriminate.
    - destruct (feqb (a * b) c) eqn:E1; cbn [negb].
      + destruct (feqb (c * d) f0) eqn:E2; cbn [negb].
        * apply feqb_true in E1, E2. rewrite IH. split.
          -- intros (evs & E & Fo & ->). exists (EvGate a b c d :: evs). rewrite E. cbn [option_map fst snd].
             split; [reflexivity|]. split; [constructor; [cbn; auto|exact Fo]|].
             rewrite tally_cons. f_equal. unfold tally, nev, bump. cbn. f_equal; lia.
          -- intros (evs & E & Fo & ->). destruct (emits (k a b c d)) as [[x l]|] eqn:K; [|discriminate].
             cbn in E. inversion E. subst. inversion Fo. subst. exists l. repeat split; auto.
             rewrite tally_cons. f_equal. unfold tally, nev, bump. cbn. f_equal; lia.
        * apply feqb_false in E2. split; [discriminate|]. intros (evs & E & Fo & _).
          destruct (emits (k a b c d)) as [[x l]|]; [|discriminate]. cbn in E. inversion E. subst. pose proof (Forall_inv Fo) as [_ O].
          contradiction.
      + apply feqb_false in E1. split; [discriminate|]. intros (evs & E & Fo & _).
        destruct (emits (k a b c d)) as [[x l]|]; [|discriminate]. cbn in E. inversion E. subst. pose proof (Forall_inv Fo) as [O _].
        contradiction.
    - split; [discriminate|]. intros (evs & E & _). discriminate.
    - rewrite IH. split.
      + intros (evs & E & Fo & ->). exists (EvAlloc :: evs). rewrite E. cbn [option_map fst snd].
        split; [reflexivity|]. split; [constructor; [exact I|exact Fo]|].
        rewrite tally_cons. f_equal. unfold tally, nev, bump. cbn. f_equal; lia.
      + intros (evs & E & Fo & ->). destruct (emits (k v)) as [[x l]|] eqn:K; [|discriminate].
        cbn in E. inversion E. subst. inversion Fo. subst. exists l. repeat split; auto.
        rewrite tally_cons. f_equal. unfold tally, nev, bump. cbn. f_equal; lia.
    - split; [discriminate|]. intros (evs & E & _). discriminate.
    - rewrite direct_sum_ok. apply IH.
    - rewrite direct_sum_ok. destruct (feqb (lin_spec (fun w => w) lc) f0) eqn:E0; cbn [negb].
      + apply feqb_true in E0. rewrite IH. split.
        * intros (evs & E & Fo & ->). eexists. rewrite E. cbn [option_map fst snd].
          split; [reflexivity|]. split; [constructor; [exact E0|exact Fo]|].
          rewrite tally_cons. f_equal. unfold tally, nev, bump. cbn. f_equal; lia.
        * intros (evs & E & Fo & ->). destruct (emits k) as [[x l]|] eqn:K; [|discriminate].
          cbn in E. inversion E. subst. inversion Fo. subst. exists l. repeat split; auto.
          rewrite tally_cons. f_equal. unfold tally, nev, bump. cbn. f_equal; lia.
      + apply feqb_false in E0. split; [discriminate|]. intros (evs & E & Fo & _).
        destruct (emits k) as [[x l]|]; [|discriminate]. cbn in E. inversion E. subst. inversion Fo. contradiction.
  Qed.
  Lemma sim_holds {A : Type} (p : G F F A) : forall s a s', simulate p s = Some (a, s') -> holds p a.
  Proof.
    induction p as [a0| |[[[[a b] c] d]|] k IH|[v|] k IH|lc k IH|lc k IH]; intros s r s'; cbn [simulate holds]; try discriminate.
    - intros H. now inversion H.
    - destruct (feqb (a * b) c) eqn:E1; cbn [negb]; [|discriminate].
      destruct (feqb (c * d) f0) eqn:E2; cbn [negb]; [|discriminate]. apply feqb_true in E1, E2.
      intros H. exists a, b, c, d. repeat split; auto. eapply IH; eauto.
    - intros H. exists v. eapply IH; eauto.
    - rewrite direct_sum_ok. apply IH.
    - rewrite direct_sum_ok. destruct (feqb _ f0) eqn:E0; cbn [negb]; [|discriminate]. apply feqb_true in E0.
      intros H. split; auto. eapply IH; eauto.
  Qed.
End Sim.
