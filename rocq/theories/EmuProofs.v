(** Proofs for C50: the emulator drivers and the shape of the emitted program. *)
From Coq Require Import List Arith NArith Lia Bool.
From Verif Require Import FieldDef ArithModel ArithSpec ArithProofs GadgetModel GadgetSpec GadgetProofs CircModel EmuModel
  CompileModel CompileSpec ParSpec ParProofs.
Import ListNotations.
Local Open Scope nat_scope.

Section Emu.
  Context {F : Field}.

  Lemma lrel_eq (lc lc' : list (lcall F wref)) : Forall2 (lrel eq) lc lc' -> lc = lc'.
  Proof.
    intros H. induction H as [|x y l l' Hx _ IH]; [reflexivity|]. rewrite IH. f_equal.
    destruct Hx as [w w' c E|c|w w' E|w w' E|ts ts' E]; subst; try reflexivity.
    f_equal. induction E as [|[a b] [a' b'] m m' [Ha Hb] _ IHm]; [reflexivity|]. cbn in Ha, Hb. subst. now f_equal.
  Qed.

  (** a run without witness data next to one with it *)
  Lemma compile_shape {A1 A2 : Type} (RA : A1 -> A2 -> Prop) (p1 : G F wref A1) (p2 : G F wref A2) :
    grel eq false RA p1 p2 -> forall n,
    prefix (strip (fst (compile p2 n))) (fst (compile p1 n)) /\
    forall a2, snd (compile p2 n) = Some a2 ->
      strip (fst (compile p2 n)) = fst (compile p1 n) /\ exists a1, snd (compile p1 n) = Some a1 /\ RA a1 a2.
  Proof.
    induction 1 as [a1 a2 R| |p E|w1 w2 k1 k2 Hw Hk IH|w1 w2 k1 k2 Hw Hk IH|l1 l2 k1 k2 Hl Hk IH|l1 l2 k1 k2 Hl Hk IH];
      intros n; cbn [compile fst snd strip].
    - split; [constructor|]. intros b E. inversion E; subst. split; [reflexivity|]. now exists a1.
    - split; [constructor|]. discriminate.
    - split; [constructor|]. discriminate.
    - cbn in Hw. subst w1.
      destruct (IH _ _ _ _ _ _ _ _ (eq_refl (WVar n)) (eq_refl (WVar (S n))) (eq_refl (WVar (S (S n))))
                  (eq_refl (WVar (S (S (S n))))) (S (S (S (S n))))) as [I1 I2].
      destruct w2 as [[[[a b] c] d]|]; cbn [fst snd strip].
      + split; [constructor; exact I1|]. intros a2 E. destruct (I2 a2 E) as [J1 J2]. now rewrite J1.
      + split; [constructor; exact I1|]. intros a2 E. destruct (I2 a2 E) as [J1 J2]. now rewrite J1.
    - cbn in Hw. subst w1. destruct (IH _ _ (eq_refl (WVar n)) (S n)) as [I1 I2].
      split; [constructor; exact I1|]. intros a2 E. destruct (I2 a2 E) as [J1 J2]. now rewrite J1.
    - apply lrel_eq in Hl. subst l2. destruct (IH _ _ (eq_refl (WVar n)) (S n)) as [I1 I2].
      split; [constructor; exact I1|]. intros a2 E. destruct (I2 a2 E) as [J1 J2]. now rewrite J1.
    - apply lrel_eq in Hl. subst l2. destruct (IH n) as [I1 I2].
      split; [constructor; exact I1|]. intros a2 E. destruct (I2 a2 E) as [J1 J2]. now rewrite J1.
  Qed.

  (** ** the emulators *)
  Lemma simulate_emulate {A : Type} (p : G F F A) : forall s a s', simulate p s = Some (a, s') -> emulate_wired p = Some a.
  Proof.
    induction p as [a| |[[[[a b] c] d]|] k IH|[v|] k IH|lc k IH|lc k IH]; intros s r s' H; cbn [simulate emulate_wired] in *;
      try discriminate.
    - now inversion H.
    - destruct (negb _) in H; [discriminate|]. destruct (negb _) in H; [discriminate|]. eauto.
    - eauto.
    - eauto.
    - destruct (negb _) in H; [discriminate|]. eauto.
  Qed.
  (** what the wired emulator returns is what the constraints see: the values of
      [emits] *)
  Lemma emulate_emits {A : Type} (p : G F F A) : emulate_wired p = option_map fst (emits p).
  Proof.
    induction p as [a| |[[[[a b] c] d]|] k IH|[v|] k IH|lc k IH|lc k IH]; cbn [emulate_wired emits option_map]; auto.
    - rewrite IH. now destruct (emits _) as [[]|].
    - rewrite IH. now destruct (emits _) as [[]|].
    - rewrite direct_sum_ok. apply IH.
    - rewrite IH. now destruct (emits _) as [[]|].
  Qed.
  Lemma wireless_wired {A1 A2 : Type} (RW : unit -> F -> Prop) (RA : A1 -> A2 -> Prop) (p1 : G F unit A1) (p2 : G F F A2) :
    (forall u v, RW u v) -> grel RW true RA p1 p2 ->
    forall a2, emulate_wired p2 = Some a2 -> exists a1, emulate_wireless p1 = Some a1 /\ RA a1 a2.
  Proof.
    intros T. induction 1 as [a1 a2 R| |p E|w1 w2 k1 k2 Hw Hk IH|w1 w2 k1 k2 Hw Hk IH|l1 l2 k1 k2 Hl Hk IH|l1 l2 k1 k2 Hl Hk IH];
      intros r H; cbn [emulate_wired emulate_wireless] in *; try discriminate.
    - inversion H; subst. now exists a1.
    - destruct w2 as [[[[a b] c] d]|]; [|discriminate]. eapply IH; eauto.
    - destruct w2; [|discriminate]. eapply IH; eauto.
    - eapply IH; eauto.
    - eauto.
  Qed.
End Emu.

Section Same.
  Context {F : Field}.
  Lemma erel_wires (hv : bool) (l l' : list (elem F wref)) : Forall2 (erel eq hv) l l' -> map (ew F wref) l = map (ew F wref) l'.
  Proof. induction 1 as [|x y m m' [H _] _ IH]; [reflexivity|]. cbn [map]. now rewrite H, IH. Qed.
  Lemma erel_values {W1 W2 : Type} (RW : W1 -> W2 -> Prop) (l : list (elem F W1)) (l' : list (elem F W2)) :
    Forall2 (erel RW true) l l' -> map (ev F W1) l = map (ev F W2) l'.
  Proof. induction 1 as [|x y m m' [_ H] _ IH]; [reflexivity|]. cbn [map]. cbn in H. now rewrite H, IH. Qed.
  Lemma same_of {A : Type} (outs : A -> list (elem F wref)) (RA : A -> A -> Prop) (p q : G F wref A) :
    (forall a b, RA a b -> Forall2 (erel eq false) (outs a) (outs b)) -> grel eq false RA p q -> same_circuit outs p q.
  Proof.
    intros H Hg n. destruct (compile_shape RA p q Hg n) as [A1 A2]. split; [exact A1|]. intros a E.
    destruct (A2 a E) as (B & a' & C & D). split; [exact B|]. exists a'. split; [exact C|]. eapply erel_wires. eauto.
  Qed.
End Same.
