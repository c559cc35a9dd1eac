(** A Poseidon permutation with an invertible matrix and a bijective power map is a
    bijection. *)
From Coq Require Import List Arith NArith ZArith Znumtheory Bool Lia Ring Field.
From Verif Require Import FieldDef GF PrimeCert RegModel SpongeModel SpongeSpec PastaSpec PastaProofs.
Import ListNotations.
Local Open Scope nat_scope.

Section Perm.
  Variables (F : Field) (P : pparams F).
  Add Field FFu15 : (f_theory F).
  Open Scope f_scope.
  Local Notation T := (pp_T P).
  Variables (inv : nat -> nat -> F) (root : F -> F).
  Local Notation mat := (fun i j => nth j (nth i (pp_mds P) []) 0).
  Hypothesis WP : wf_params P.
  Hypothesis Hr : forall i k, (i < T)%nat -> (k < T)%nat -> fsum T (fun j => mat i j * inv j k) = if Nat.eqb i k then 1 else 0.
  Hypothesis Hl : forall i k, (i < T)%nat -> (k < T)%nat -> fsum T (fun j => inv i j * mat j k) = if Nat.eqb i k then 1 else 0.
  Hypothesis Hroot : forall x, root x ^ 5 = x.
  Hypothesis Hinj : forall x y : F, x ^ 5 = y ^ 5 -> x = y.

  Lemma delta (i : nat) (f : nat -> F) : (i < T)%nat -> fsum T (fun k => (if Nat.eqb i k then 1 else 0) * f k) = f i.
  Proof.
    intros Hi. rewrite (fsum_single F T i); [rewrite Nat.eqb_refl; ring|exact Hi|]. intros j _ Hj. destruct (Nat.eqb_spec i j) as [->|]; [now elim Hj|ring].
  Qed.
  Lemma mds_len : length (pp_mds P) = T. Proof. apply WP. Qed.
  Lemma round_nth full rc v i : (i < T)%nat -> nth i (round_spec F P full rc v) 0 =
    fsum T (fun j => (if (full || Nat.eqb j 0)%bool then (nth j v 0 + nth j rc 0) ^ 5 else nth j v 0 + nth j rc 0) * mat i j).
  Proof.
    intros Hi. unfold round_spec. set (g := fun row : list F => _). change (0 : F) with ((fun _ : list F => 0 : F) []) at 1.
    transitivity (nth i (map g (pp_mds P)) (g [])).
    - apply nth_indep. rewrite map_length, mds_len. exact Hi.
    - rewrite map_nth. reflexivity.
  Qed.
  Lemma round_len full rc v : length (round_spec F P full rc v) = T.
  Proof. unfold round_spec. now rewrite map_length, mds_len. Qed.
  Lemma round_permutes full rc : permutes T (round_spec F P full rc).
  Proof.
    split; [intros; apply round_len|]. intros w Lw.
    set (sb := fun (j : nat) (x : F) => if (full || Nat.eqb j 0)%bool then x ^ 5 else x).
    set (rt := fun (j : nat) (x : F) => if (full || Nat.eqb j 0)%bool then root x else x).
    assert (Sr : forall j x, sb j (rt j x) = x) by (intros j x; unfold sb, rt; destruct (full || Nat.eqb j 0)%bool; auto).
    assert (Si : forall j x y, sb j x = sb j y -> x = y) by (intros j x y; unfold sb; destruct (full || Nat.eqb j 0)%bool; auto).
    set (u := fun j => fsum T (fun k => inv j k * nth k w 0)).
    set (v := map (fun j => rt j (u j) - nth j rc 0) (seq 0 T)).
    assert (Lv : length v = T) by (unfold v; now rewrite map_length, seq_length).
    assert (Nv : forall j, (j < T)%nat -> nth j v 0 = rt j (u j) - nth j rc 0).
    { intros j Hj. unfold v. set (g := fun j0 : nat => _). transitivity (nth j (map g (seq 0 T)) (g 0%nat)); [apply nth_indep; now rewrite map_length, seq_length|]. rewrite map_nth, seq_nth by exact Hj. reflexivity. }
    (* the state before the matrix, from the state after it *)
    assert (Back : forall x, length x = T -> forall j, (j < T)%nat -> sb j (nth j x 0 + nth j rc 0) = fsum T (fun i => inv j i * nth i (round_spec F P full rc x) 0)).
    { intros x Lx j Hj. symmetry. transitivity (fsum T (fun i => fsum T (fun k => inv j i * (sb k (nth k x 0 + nth k rc 0) * mat i k)))).
      { apply fsum_ext. intros i Hi. rewrite round_nth by exact Hi. rewrite <- fsum_scale. reflexivity. }
      rewrite fsum_swap. transitivity (fsum T (fun k => (if Nat.eqb j k then 1 else 0) * sb k (nth k x 0 + nth k rc 0))); [|now apply (delta j (fun k => sb k (nth k x 0 + nth k rc 0)))].
      apply fsum_ext. intros k Hk. rewrite <- (Hl j k Hj Hk), <- fsum_scale_r. apply fsum_ext. intros i Hi. ring. }
    exists v. split; [exact Lv|]. split.
    - apply (nth_ext _ _ 0 0); [rewrite round_len; auto|]. intros i Hi. rewrite round_len in Hi. rewrite round_nth by exact Hi.
      transitivity (fsum T (fun j => fsum T (fun k => inv j k * nth k w 0 * mat i j))).
      { apply fsum_ext. intros j Hj. rewrite fsum_scale_r. f_equal. change (sb j (nth j v 0 + nth j rc 0) = u j). rewrite Nv by exact Hj.
        replace (rt j (u j) - nth j rc 0 + nth j rc 0) with (rt j (u j)) by ring. apply Sr. }
      rewrite fsum_swap. transitivity (fsum T (fun k => (if Nat.eqb i k then 1 else 0) * nth k w 0)); [|now apply (delta i (fun k => nth k w 0))].
      apply fsum_ext. intros k Hk. rewrite <- (Hr i k Hi Hk), <- fsum_scale_r. apply fsum_ext. intros j Hj. ring.
    - intros v' Lv' E. apply (nth_ext _ _ 0 0); [lia|]. intros j Hj. rewrite Lv' in Hj.
      assert (B := Back v' Lv' j Hj). rewrite E in B. fold (u j) in B. rewrite (Nv j Hj).
      assert (K : nth j v' 0 + nth j rc 0 = rt j (u j)) by (apply (Si j); rewrite Sr; exact B). rewrite <- K. ring.
  Qed.
  Lemma permutes_fold {A : Type} (f : list F -> A -> list F) n : (forall a, permutes n (fun v => f v a)) -> forall l, permutes n (fun v => fold_left f l v).
  Proof.
    intros H. induction l as [|a l [L I]]; cbn [fold_left].
    - split; [auto|]. intros w Lw. exists w. auto.
    - destruct (H a) as [La Ia]. split; [intros v Hv; apply L, La, Hv|]. intros w Lw. destruct (I w Lw) as (v1 & L1 & E1 & U1). destruct (Ia v1 L1) as (v0 & L0 & E0 & U0).
      exists v0. split; [exact L0|]. split; [now rewrite E0|]. intros v' Lv' E. apply U0; auto.
  Qed.
  Theorem poseidon_permutes : permutes T (poseidon P).
  Proof. unfold poseidon. apply permutes_fold. intros r. apply round_permutes. Qed.
End Perm.

Section Check.
  Variables (p : Z) (Hg : good p).
  Local Notation F := (GF p Hg).
  Local Notation inj := (mk p Hg : Z -> F).
  Definition zsum (n : nat) (f : nat -> Z) : Z := fold_left (fun a j => (a + f j)%Z) (seq 0 n) 0%Z.
  Definition zent (m : list (list Z)) (i j : nat) : Z := nth j (nth i m []) 0%Z.
  Definition inverse_check (n : nat) (a b : list (list Z)) : bool :=
    forallb (fun i => forallb (fun k => (zsum n (fun j => zent a i j * zent b j k) mod p =? (if Nat.eqb i k then 1 else 0))%Z) (seq 0 n)) (seq 0 n).
  Lemma zsum_inj n f : inj (zsum n f) = fsum n (fun j => inj (f j)).
  Proof.
    unfold zsum. induction n as [|n IH]; [reflexivity|]. rewrite seq_S, fold_left_app. cbn [fold_left fsum Nat.add]. rewrite inj_add, IH. reflexivity.
  Qed.
  Lemma ent_inj m i j : nth j (nth i (map (map inj) m) []) f0 = inj (zent m i j).
  Proof. unfold zent. change (@nil F) with (map inj []). rewrite map_nth. change (f0 : F) with (inj 0%Z). apply map_nth. Qed.
  Lemma inverse_ok n a b : inverse_check n a b = true -> forall i k, (i < n)%nat -> (k < n)%nat ->
    fsum n (fun j => fmul (inj (zent a i j)) (inj (zent b j k))) = if Nat.eqb i k then f1 else f0 :> F.
  Proof.
    intros C i k Hi Hk. unfold inverse_check in C. rewrite forallb_forall in C. specialize (C i (proj2 (in_seq n 0 i) (conj (Nat.le_0_l i) Hi))). cbv beta in C. rewrite forallb_forall in C. specialize (C k (proj2 (in_seq n 0 k) (conj (Nat.le_0_l k) Hk))).
    apply Z.eqb_eq in C. transitivity (inj (zsum n (fun j => zent a i j * zent b j k))%Z).
    - rewrite zsum_inj. apply fsum_ext. intros j _. symmetry. apply inj_mul.
    - rewrite <- inj_mod, C. destruct (Nat.eqb i k); reflexivity.
  Qed.
End Check.

(** ** the keys of the roots of unity *)
Lemma nat_pow2 k : Z.to_nat (2 ^ Z.of_nat k) = 2 ^ k.
Proof. apply Nat2Z.inj. rewrite Z2Nat.id by (apply Z.pow_nonneg; lia). rewrite Nat2Z.inj_pow. reflexivity. Qed.
Lemma nat_split pz hz k : (0 <= hz)%Z -> (pz =? (2 * hz + 1) * 2 ^ Z.of_nat k)%Z = true -> Z.to_nat pz = (2 * Z.to_nat hz + 1) * 2 ^ k.
Proof.
  intros Hh E. apply Z.eqb_eq in E. rewrite E, Z2Nat.inj_mul, nat_pow2 by (try apply Z.pow_nonneg; lia). f_equal. lia.
Qed.
Section Units.
  Variable F : Field.
  Add Field FFu16 : (f_theory F).
  Open Scope f_scope.
  Lemma add_zero (x y : F) : x + y = 0 -> x = - y. Proof. intros E. transitivity (x + y - y); [ring|]. rewrite E. ring. Qed.
  Lemma one_r (x : F) : x * 1 = x. Proof. ring. Qed.
  Lemma one_l (x : F) : 1 * x = x. Proof. ring. Qed.
  Lemma mul_assoc (x y z : F) : x * (y * z) = x * y * z. Proof. ring. Qed.
End Units.
