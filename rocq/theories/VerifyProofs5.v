(** Which slots an accepted proof can name. *)
From Coq Require Import List Arith NArith Bool Lia Ring Field.
From Verif Require Import FieldDef ModDef ArithModel ArithSpec ArithProofs FFTModel FFTProofs SparseModel SparseSpec SparseProofs SparseProofs2 TModel TProofs
  FoldModel FoldSpec ClaimModel CircModel CircSpec SyModel SProofs TraceModel CircProofs CircProofs2 SyProofs SyProofs2 SatProofs GadgetModel GadgetSpec SpongeModel StageModel StageSpec StageProofs RegModel RegSpec RegProofs RegProofs2
  PcdModel PcdSpec PcdProofs2 RecModel RecSpec CompileModel CompileSpec CompileSpec2 CompileProofs CompileProofs2 RecStageModel RecStageSpec RecStageProofs Props_Step
  VerifyModel VerifySpec VerifyProofs VerifyProofs2 VerifyProofs3 VerifyProofs4.
Import ListNotations.
Local Open Scope nat_scope.

Section Lin.
  Variable F : Field.
  Add Field FFvl : (f_theory F).
  Open Scope f_scope.
  (** every result a program can return when the sums are computed and nothing is enforced *)
  Fixpoint lleaves {A : Type} (Q : A -> Prop) (p : G F F A) : Prop :=
    match p with
    | GRet a => Q a
    | GErr => True
    | GGate _ k => forall a b c d, lleaves Q (k a b c d)
    | GAlloc _ k => forall a, lleaves Q (k a)
    | GAdd lc k => lleaves Q (k (lin_spec (fun w => w) lc))
    | GEnf _ k => lleaves Q k
    end.
  Lemma lleaves_bind {A B} (Q : B -> Prop) (f : A -> G F F B) : forall p, lleaves (fun a => lleaves Q (f a)) p -> lleaves Q (gbind p f).
  Proof. induction p; cbn [lleaves gbind]; auto. Qed.
  Lemma lleaves_all {A} (Q : A -> Prop) : (forall a, Q a) -> forall p : G F F A, lleaves Q p.
  Proof. intros H. induction p; cbn [lleaves]; auto. Qed.
  Lemma lleaves_tail {A B} (Q : B -> Prop) (f : A -> G F F B) p : (forall a, lleaves Q (f a)) -> lleaves Q (gbind p f).
  Proof. intros H. apply lleaves_bind, lleaves_all, H. Qed.
  Lemma sem_leaves (val : nat -> kind -> nat -> F) (one : one_val val = 1) (Q : list (elem F F) -> Prop) :
    forall p1 p2 env g av r1, agree p1 p2 env -> lleaves Q p2 ->
    snd (compile p1 (length env)) = Some r1 ->
    exists r2, Q r2 /\ map (lookup 1 (sm_env (sem val (fst (compile p1 (length env))) 0 1 g av env))) (map (ew F wref) r1) = map (ew F F) r2.
  Proof.
    induction p1 as [a| |w k IH|w k IH|lc k IH|lc k IH]; intros p2 env g av r1 Hag HQ.
    - destruct Hag as [L H]. cbn [compile fst snd sem sm_env]. intros E. inversion E; subst.
      specialize (H env (ext_refl env)). inversion H as [? a2 R| | | | | | ]; subst; try discriminate.
      exists a2. split; [exact HQ|]. now apply rres_lookup.
    - discriminate.
    - destruct p2 as [|  |w2 k2| | | ];
        try (destruct Hag as [_ H]; specialize (H env (ext_refl env)); inversion H; discriminate).
      cbn [compile]. destruct (match w with Some t => t | None => _ end) as [[[a b] c] d]. cbn [fst snd sem]. intros E.
      pose proof (agree_gate _ _ _ _ _ (val 0%nat KA g) (val 0%nat KB g) (val 0%nat KC g) (val 0%nat KD g) Hag) as Hag'. cbv zeta in Hag'.
      specialize (IH _ _ _ _ _ _ (S g) av r1 Hag' (HQ _ _ _ _)).
      rewrite app_length in IH. cbn [length] in IH. rewrite Nat.add_comm in IH. cbn [Nat.add] in IH. exact (IH E).
    - destruct p2 as [| | |w2 k2| | ];
        try (destruct Hag as [_ H]; specialize (H env (ext_refl env)); inversion H; discriminate).
      cbn [compile fst snd sem]. intros E. destruct av as [dv|].
      + pose proof (agree_alloc _ _ _ _ _ dv Hag) as Hag'. specialize (IH _ _ _ g None r1 Hag' (HQ _)).
        rewrite app_length in IH. cbn [length] in IH. rewrite Nat.add_comm in IH. cbn [Nat.add] in IH. exact (IH E).
      + pose proof (agree_alloc _ _ _ _ _ (val 0%nat KB g) Hag) as Hag'. specialize (IH _ _ _ (S g) (Some (val 0%nat KD g)) r1 Hag' (HQ _)).
        rewrite app_length in IH. cbn [length] in IH. rewrite Nat.add_comm in IH. cbn [Nat.add] in IH. exact (IH E).
    - destruct p2 as [| | | |l2 k2| ];
        try (destruct Hag as [_ H]; specialize (H env (ext_refl env)); inversion H; discriminate).
      cbn [compile fst snd sem]. intros E. unfold lc_val. rewrite one.
      destruct (agree_add _ _ _ _ _ Hag) as [El Hag']. rewrite El.
      specialize (IH _ _ _ g av r1 Hag' HQ).
      rewrite app_length in IH. cbn [length] in IH. rewrite Nat.add_comm in IH. cbn [Nat.add] in IH. exact (IH E).
    - destruct p2 as [| | | | |l2 k2];
        try (destruct Hag as [_ H]; specialize (H env (ext_refl env)); inversion H; discriminate).
      cbn [compile fst snd sem sm_env]. intros E. destruct (agree_enf _ _ _ _ _ Hag) as [El Hag'].
      exact (IH _ _ g av r1 Hag' HQ E).
  Qed.

  (** the last output is the wire of a constant zero *)
  Definition ends_zero (o : list (elem F F)) : Prop := exists o' z, o = o' ++ [z] /\ ew F F z = 0.
  Variable (cb : F) (P : pparams F).
  Lemma zero_leaves {B} (Q : B -> Prop) (f : elem F F -> G F F B) : (forall z, ew F F z = 0 -> lleaves Q (f z)) -> lleaves Q (gbind (e_zero F F 1 false) f).
  Proof.
    intros H. unfold e_zero, g_constant. cbn [gbind lleaves]. apply H. cbn [ew]. unfold lin_spec. cbn. ring.
  Qed.
  Lemma finish_zero (b : ubuilder F F) : lleaves (fun o => ends_zero (fst o)) (finish F F 1 false cb b).
  Proof. unfold finish. apply zero_leaves. intros z Hz. apply lleaves_tail. intros a. cbn [lleaves fst]. exists (fst a), z. auto. Qed.
  Ltac walk :=
    repeat first
      [ match goal with
        | |- lleaves _ (finish _ _ _ _ _ _) => apply finish_zero
        | |- lleaves _ (gbind (finish_no_suffix _ _ _ _ _) _) => fail 1
        | |- lleaves _ GErr => exact I
        | |- lleaves _ (gbind _ _) => apply lleaves_tail; intro
        | |- lleaves _ (match ?x with _ => _ end) => destruct x
        end ].
  Variables (hs M N : nat).
  Lemma fst_zero (p : G F F (list (elem F F) * option coverage)) : lleaves (fun o => ends_zero (fst o)) p -> lleaves ends_zero (fst_out p).
  Proof. intros L. unfold fst_out. apply lleaves_bind. exact L. Qed.
  Lemma h1_zero of_u tag log2 gs : lleaves ends_zero (s_hashes_1 F cb hs N P of_u tag log2 F 1 gs).
  Proof.
    apply fst_zero. unfold hashes_1. cbv zeta. walk. apply lleaves_tail. intros uu. apply zero_leaves. intros zz Hz. cbn [lleaves fst]. eexists. exists zz. split; [|exact Hz].
    rewrite !app_assoc. reflexivity.
  Qed.
  Lemma h2_zero gs : lleaves ends_zero (s_hashes_2 F cb N P F 1 gs).
  Proof. apply fst_zero. unfold hashes_2. cbv zeta. walk. Qed.
  Lemma inner_zero gs : lleaves ends_zero (s_inner F cb hs M N P F 1 gs).
  Proof. apply fst_zero. unfold inner_collapse. cbv zeta. walk. Qed.
  Lemma outer_zero gs : lleaves ends_zero (s_outer F cb hs N P F 1 gs).
  Proof. apply fst_zero. unfold outer_collapse. cbv zeta. walk. Qed.
  Lemma v_zero k nbits gen fsqrt zeta omega gs : lleaves ends_zero (s_compute_v F cb hs M N k nbits gen fsqrt zeta omega F 1 gs).
  Proof. apply fst_zero. unfold compute_v. cbv zeta. walk. Qed.
End Lin.
