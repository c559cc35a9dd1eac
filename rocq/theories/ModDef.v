(** Modules over a field: used for [fft::Ring] elements, for curve groups seen
    through their scalar action, and for polynomials. *)
From Coq Require Import List Arith Lia Ring Field.
From Verif Require Import FieldDef.
Import ListNotations.

Record FMod (F : Field) := mkFMod {
  mcar :> Type;
  m0 : mcar;
  madd : mcar -> mcar -> mcar;
  msub : mcar -> mcar -> mcar;
  mscale : F -> mcar -> mcar;
  madd_comm : forall x y, madd x y = madd y x;
  madd_assoc : forall x y z, madd x (madd y z) = madd (madd x y) z;
  madd_0 : forall x, madd m0 x = x;
  msub_def : forall x y, msub x y = madd x (mscale (fopp f1) y);
  mscale_1 : forall x, mscale f1 x = x;
  mscale_mul : forall a b x, mscale a (mscale b x) = mscale (fmul a b) x;
  mscale_addl : forall a b x, mscale (fadd a b) x = madd (mscale a x) (mscale b x);
  mscale_addr : forall a x y, mscale a (madd x y) = madd (mscale a x) (mscale a y);
  mscale_0 : forall x, mscale f0 x = m0
}.
Arguments m0 {F _}. Arguments madd {F _} _ _. Arguments msub {F _} _ _.
Arguments mscale {F _} _ _.

Fixpoint msum {F : Field} {M : FMod F} (n : nat) (f : nat -> M) : M :=
  match n with O => m0 | S n' => madd (msum n' f) (f n') end.

Section ModP.
  Variables (F : Field) (M : FMod F).
  Add Field FFm : (f_theory F).
  Implicit Types x y z : M.

  Lemma madd_0_r x : madd x m0 = x.
  Proof. rewrite madd_comm. apply madd_0. Qed.

  Lemma mscale_m0 (a : F) : mscale a (m0 : M) = m0.
  Proof. rewrite <- (mscale_0 F M m0), mscale_mul. f_equal. ring. Qed.

  Lemma madd_4 x y z w : madd (madd x y) (madd z w) = madd (madd x z) (madd y w).
  Proof.
    rewrite !madd_assoc. f_equal. rewrite <- !madd_assoc. f_equal. apply madd_comm.
  Qed.

  Lemma msub_self x : msub x x = m0.
  Proof.
    rewrite msub_def. rewrite <- (mscale_1 F M x) at 1. rewrite <- mscale_addl.
    replace (fadd f1 (fopp f1)) with (f0 : F) by ring. apply mscale_0.
  Qed.

  Lemma msub_scale (a : F) x y : msub x (mscale a y) = madd x (mscale (fopp a) y).
  Proof. rewrite msub_def, mscale_mul. do 2 f_equal. ring. Qed.

  Lemma msum_ext n (f g : nat -> M) :
    (forall i, i < n -> f i = g i) -> msum n f = msum n g.
  Proof.
    induction n as [|n IH]; intros H; simpl; [reflexivity|].
    rewrite IH, (H n) by (intros; try apply H; lia). reflexivity.
  Qed.

  Lemma msum_zero n (f : nat -> M) : (forall i, i < n -> f i = m0) -> msum n f = m0.
  Proof.
    induction n as [|n IH]; intros H; simpl; [reflexivity|].
    rewrite IH, (H n) by (intros; try apply H; lia). apply madd_0.
  Qed.

  Lemma msum_add n (f g : nat -> M) :
    msum n (fun i => madd (f i) (g i)) = madd (msum n f) (msum n g).
  Proof.
    induction n as [|n IH]; simpl; [rewrite madd_0; reflexivity|]. rewrite IH. apply madd_4.
  Qed.

  Lemma msum_scale n (a : F) (f : nat -> M) :
    msum n (fun i => mscale a (f i)) = mscale a (msum n f).
  Proof.
    induction n as [|n IH]; simpl; [rewrite mscale_m0; reflexivity|].
    rewrite IH, mscale_addr. reflexivity.
  Qed.

  Lemma msum_split n m (f : nat -> M) :
    msum (n + m) f = madd (msum n f) (msum m (fun i => f (n + i))).
  Proof.
    induction m as [|m IH]; simpl.
    - rewrite Nat.add_0_r, madd_0_r. reflexivity.
    - rewrite Nat.add_succ_r. simpl. rewrite IH, madd_assoc. reflexivity.
  Qed.

  Lemma msum_S_first n (f : nat -> M) : msum (S n) f = madd (f 0) (msum n (fun i => f (S i))).
  Proof. change (S n) with (1 + n). rewrite msum_split. simpl. rewrite madd_0. reflexivity. Qed.

  Lemma msum_even_odd n (f : nat -> M) :
    msum (2 * n) f = madd (msum n (fun i => f (2 * i))) (msum n (fun i => f (2 * i + 1))).
  Proof.
    induction n as [|n IH]; [simpl; rewrite madd_0; reflexivity|].
    replace (2 * S n) with (S (S (2 * n))) by lia. cbn [msum]. rewrite IH.
    replace (S (2 * n)) with (2 * n + 1) by lia.
    rewrite <- madd_assoc. apply madd_4.
  Qed.

  Lemma msum_swap n m (f : nat -> nat -> M) :
    msum n (fun i => msum m (fun j => f i j)) = msum m (fun j => msum n (fun i => f i j)).
  Proof.
    induction n as [|n IH]; simpl.
    - symmetry. apply msum_zero. reflexivity.
    - rewrite IH, <- msum_add. reflexivity.
  Qed.

  Lemma msum_single n k (f : nat -> M) :
    k < n -> (forall i, i < n -> i <> k -> f i = m0) -> msum n f = f k.
  Proof.
    intros Hk H. replace n with (k + S (n - k - 1)) in * by lia.
    rewrite msum_split, msum_S_first, Nat.add_0_r.
    rewrite (msum_zero k) by (intros i Hi; apply H; lia).
    rewrite (msum_zero (n - k - 1)) by (intros i Hi; apply H; lia).
    rewrite madd_0, madd_0_r. reflexivity.
  Qed.

  Lemma mscale_fsum n (f : nat -> F) x :
    mscale (fsum n f) x = msum n (fun i => mscale (f i) x).
  Proof.
    induction n as [|n IH]; simpl; [apply mscale_0|]. rewrite mscale_addl, IH. reflexivity.
  Qed.

  Lemma mscale_fnat n x : mscale (fnat n) x = msum n (fun _ => x).
  Proof.
    induction n as [|n IH]; simpl; [apply mscale_0|]. rewrite mscale_addl, IH, mscale_1. reflexivity.
  Qed.
End ModP.

(** A field is a module over itself. *)
Section FieldMod.
  Variable F : Field.
  Add Field FFm2 : (f_theory F).
  Definition FieldMod : FMod F.
  Proof.
    refine (mkFMod F F f0 fadd fsub fmul _ _ _ _ _ _ _ _ _); intros; ring.
  Defined.
  Lemma msum_fsum n (f : nat -> F) : @msum F FieldMod n f = fsum n f.
  Proof. induction n as [|n IH]; simpl; [reflexivity|]. rewrite IH. reflexivity. Qed.
End FieldMod.
