(** Concrete prime fields, used only to make the examples compute.
    [GF p] has carrier {0..p-1}; primality enters as [good]: the Fermat power is
    an inverse of every nonzero residue (checked exhaustively for small p, from a
    primality certificate for the Pasta primes in Pasta.v). *)
From Coq Require Import ZArith List Lia Bool Eqdep_dec Ring Field Field_theory.
From Verif Require Import FieldDef.
Import ListNotations.
Local Open Scope Z_scope.

Section GF.
  Variable p : Z.

  Definition inb (z : Z) : bool := (0 <=? z) && (z <? p).
  Definition gf := { z : Z | inb z = true }.

  (** Fermat inverse by square and multiply *)
  Fixpoint ppow (x : Z) (e : positive) : Z :=
    match e with
    | xH => x mod p
    | xO e' => let r := ppow x e' in (r * r) mod p
    | xI e' => let r := ppow x e' in (((r * r) mod p) * x) mod p
    end.
  Definition inv_z (x : Z) : Z := ppow x (Z.to_pos (p - 2)).

  Definition check : bool :=
    (1 <? p) &&
    forallb (fun k => let z := Z.of_nat k in ((inv_z z mod p) * z) mod p =? 1)
            (seq 1 (Z.to_nat p - 1)).

  Definition good : Prop := 1 < p /\ forall z, 0 < z < p -> ((inv_z z mod p) * z) mod p = 1.
  Lemma check_good : check = true -> good.
  Proof.
    unfold check. intros C. apply andb_true_iff in C. destruct C as [C1 C]. split; [lia|].
    intros z Hz. rewrite forallb_forall in C. specialize (C (Z.to_nat z)).
    rewrite Z2Nat.id in C by lia. apply Z.eqb_eq. apply C. apply in_seq. lia.
  Qed.

  Hypothesis Hgood : good.

  Lemma p_gt1 : 1 < p.
  Proof. destruct Hgood. lia. Qed.

  Lemma mod_inb z : inb (z mod p) = true.
  Proof.
    pose proof p_gt1. pose proof (Z.mod_pos_bound z p ltac:(lia)).
    unfold inb. apply andb_true_iff. lia.
  Qed.

  Lemma zero_inb : inb 0 = true.
  Proof. pose proof p_gt1. unfold inb. apply andb_true_iff. lia. Qed.

  (** the proof component reduces to [eq_refl] on closed terms *)
  Definition mk (z : Z) : gf :=
    (match inb (z mod p) as b return inb (z mod p) = b -> gf with
     | true => fun e => exist _ (z mod p) e
     | false => fun _ => exist _ 0 zero_inb
     end) eq_refl.

  Definition val (x : gf) : Z := proj1_sig x.

  Lemma val_mk z : val (mk z) = z mod p.
  Proof.
    unfold mk. generalize (eq_refl (inb (z mod p))). generalize (inb (z mod p)) at 2 3.
    intros [|] e; [reflexivity|]. exfalso. rewrite mod_inb in e. discriminate.
  Qed.

  Lemma gf_ext (x y : gf) : val x = val y -> x = y.
  Proof.
    destruct x as [x Hx], y as [y Hy]. simpl. intros ->. f_equal.
    apply UIP_dec. apply bool_dec.
  Qed.

  Lemma val_range x : 0 <= val x < p.
  Proof. destruct x as [x Hx]. simpl. unfold inb in Hx. apply andb_true_iff in Hx. lia. Qed.

  Definition gadd x y := mk (val x + val y).
  Definition gmul x y := mk (val x * val y).
  Definition gopp x := mk (- val x).
  Definition gsub x y := mk (val x - val y).
  Definition ginv x := mk (inv_z (val x)).
  Definition gdiv x y := gmul x (ginv y).
  Definition geqb x y := val x =? val y.

  Lemma ginv_ok x : x <> mk 0 -> gmul (ginv x) x = mk 1.
  Proof.
    intros Hx. apply gf_ext. unfold gmul, ginv. rewrite !val_mk.
    pose proof (val_range x) as R. pose proof p_gt1 as P.
    assert (val x <> 0).
    { intros E. apply Hx. apply gf_ext. rewrite val_mk, E. reflexivity. }
    rewrite (Z.mod_small 1) by lia. apply Hgood. lia.
  Qed.

  Lemma gf_theory : field_theory (mk 0) (mk 1) gadd gmul gsub gopp gdiv ginv (@eq gf).
  Proof.
    pose proof p_gt1 as P.
    constructor.
    - constructor; intros; apply gf_ext; unfold gadd, gmul, gsub, gopp;
        rewrite ?val_mk;
        rewrite ?Z.add_mod_idemp_l, ?Z.add_mod_idemp_r, ?Z.mul_mod_idemp_l, ?Z.mul_mod_idemp_r by lia.
      all: rewrite ?Z.add_mod_idemp_l, ?Z.add_mod_idemp_r, ?Z.mul_mod_idemp_l, ?Z.mul_mod_idemp_r by lia.
      + rewrite Z.add_0_l. apply Z.mod_small, val_range.
      + f_equal; ring.
      + f_equal; ring.
      + rewrite Z.mul_1_l. apply Z.mod_small, val_range.
      + f_equal; ring.
      + f_equal; ring.
      + f_equal; ring.
      + rewrite Z.add_opp_r. reflexivity.
      + f_equal; ring.
    - intros E. apply (f_equal val) in E. rewrite !val_mk, Z.mod_0_l, Z.mod_small in E; lia.
    - reflexivity.
    - exact ginv_ok.
  Qed.

  Lemma geqb_spec x y : reflect (x = y) (geqb x y).
  Proof.
    unfold geqb. destruct (Z.eqb_spec (val x) (val y)) as [E|N]; constructor.
    - apply gf_ext. exact E.
    - intros E. subst. congruence.
  Qed.

  Definition GF : Field :=
    mkField gf (mk 0) (mk 1) gadd gmul gsub gopp gdiv ginv geqb gf_theory geqb_spec.
End GF.

Lemma check_17 : good 17. Proof. apply check_good. vm_compute. reflexivity. Qed.
Lemma check_97 : good 97. Proof. apply check_good. vm_compute. reflexivity. Qed.
Definition F17 : Field := GF 17 check_17.
Definition F97 : Field := GF 97 check_97.

(** literals *)
Definition l17 (z : Z) : F17 := mk 17 check_17 z.
Definition l97 (z : Z) : F97 := mk 97 check_97 z.
Definition v17 (x : F17) : Z := val 17 x.
Definition v97 (x : F97) : Z := val 97 x.

Example F97_div : v97 (fmul (finv (l97 5)) (l97 10)) = 2.
Proof. vm_compute. reflexivity. Qed.
