(** The two Pasta fields (crates/ragu_pasta: Fp and Fq of pasta_curves), with certified
    primality. *)
From Coq Require Import ZArith Znumtheory List Lia Bool.
From Verif Require Import FieldDef GF PrimeCert.
Import ListNotations.
Local Open Scope Z_scope.

Definition p_pallas : Z := 28948022309329048855892746252171976963363056481941560715954676764349967630337.

(** ** reduction by folding: both primes are 2^254 + c with a small c *)
Section Fold.
  Variables (p : Z) (red : Z -> Z).
  Fixpoint powr (x : Z) (e : positive) : Z :=
    match e with
    | xH => red x
    | xO e' => let r := powr x e' in red (r * r)
    | xI e' => let r := powr x e' in red (red (r * r) * x)
    end.
  Hypothesis Hp : 1 < p.
  Hypothesis Hred : forall x, red x mod p = x mod p.
  Lemma powr_ok x e : powr x e mod p = powm p x e.
  Proof.
    induction e as [e IH|e IH|]; cbn [powr powm]; rewrite <- ?IH, ?Hred; [|rewrite <- Z.mul_mod by lia; reflexivity|reflexivity].
    rewrite <- (Z.mul_mod_idemp_l (red _)), Hred by lia. rewrite <- (Z.mul_mod (powr x e) (powr x e)) by lia. reflexivity.
  Qed.
  Definition pock_entry_red (e : Z * Z) : bool :=
    let (q, a) := e in
    (1 <? q) && ((p - 1) mod q =? 0) && (powr a (Z.to_pos (p - 1)) mod p =? 1) &&
    (Z.gcd (powr a (Z.to_pos ((p - 1) / q)) mod p - 1) p =? 1).
  Definition pock_red (cert : list (Z * Z)) : bool :=
    (1 <? p) && forallb pock_entry_red cert && nodupb (map fst cert) && (p <? zprod (map fst cert) * zprod (map fst cert)).
  Lemma pock_red_ok cert : pock_red cert = true -> pock p cert = true.
  Proof.
    assert (Q : forall l, forallb pock_entry_red l = forallb (pock_entry p) l).
    { induction l as [|(q & a) l IH]; [reflexivity|]. cbn [forallb]. rewrite IH. f_equal. unfold pock_entry, pock_entry_red. now rewrite !powr_ok. }
    unfold pock_red, pock. now rewrite Q.
  Qed.
End Fold.
Definition mask254 : Z := 28948022309329048855892746252171976963317496166410141009864396001978282409983.
Definition fold254 (c x : Z) : Z := Z.land x mask254 - Z.shiftr x 254 * c.
Definition red254 (c x : Z) : Z := fold254 c (fold254 c x).
Lemma fold254_ok p c x : (p =? mask254 + 1 + c) = true -> 1 < p -> fold254 c x mod p = x mod p.
Proof.
  intros E Hp. apply Z.eqb_eq in E. unfold fold254. assert (Om : mask254 = Z.ones 254) by reflexivity. assert (Em : mask254 + 1 = 2 ^ 254) by reflexivity.
  rewrite Em in E. rewrite Om, Z.land_ones, Z.shiftr_div_pow2 by lia. clear Om Em.
  assert (Nm : 2 ^ 254 <> 0) by discriminate. set (m := 2 ^ 254) in *. clearbody m.
  replace (x mod m - x / m * c) with (x + (- (x / m)) * p) by (rewrite E, (Z.mod_eq x m Nm); ring). apply Z.mod_add. lia.
Qed.
Lemma red254_ok p c x : (p =? mask254 + 1 + c) = true -> 1 < p -> red254 c x mod p = x mod p.
Proof. intros E Hp. unfold red254. now rewrite !(fold254_ok p c) by assumption. Qed.
Definition c_pallas : Z := 45560315531419706090280762371685220353.
Definition red_pallas : Z -> Z := red254 c_pallas.
Lemma red_pallas_ok x : red_pallas x mod p_pallas = x mod p_pallas.
Proof. apply red254_ok; reflexivity. Qed.

Ltac small_prime := apply (trial_prime _ (Z.to_nat 1000)); [lia|vm_compute; reflexivity].
Lemma prime_19 : prime 19. Proof. small_prime. Qed.
Lemma prime_977 : prime 977. Proof. small_prime. Qed.
Lemma prime_413527 : prime 413527. Proof. small_prime. Qed.
Lemma prime_772231 : prime 772231. Proof. small_prime. Qed.
Lemma prime_6942563 : prime 6942563.
Proof.
  apply (pocklington _ [(977, 2); (19, 2)]); [vm_compute; reflexivity|].
  apply Forall_cons; [exact prime_977|]. apply Forall_cons; [exact prime_19|]. apply Forall_nil.
Qed.
Lemma prime_41655379 : prime 41655379.
Proof.
  apply (pocklington _ [(6942563, 2)]); [vm_compute; reflexivity|].
  apply Forall_cons; [exact prime_6942563|]. apply Forall_nil.
Qed.
Lemma prime_22160661629 : prime 22160661629.
Proof.
  apply (pocklington _ [(41655379, 2)]); [vm_compute; reflexivity|].
  apply Forall_cons; [exact prime_41655379|]. apply Forall_nil.
Qed.
Lemma prime_p3 : prime 325086459374267.
Proof.
  apply (pocklington _ [(772231, 2); (413527, 2)]); [vm_compute; reflexivity|].
  apply Forall_cons; [exact prime_772231|]. apply Forall_cons; [exact prime_413527|]. apply Forall_nil.
Qed.
Lemma prime_p2 : prime 8999194758858563409123804352480028797519453.
Proof.
  apply (pocklington _ [(325086459374267, 2); (22160661629, 2)]); [vm_compute; reflexivity|].
  apply Forall_cons; [exact prime_p3|]. apply Forall_cons; [exact prime_22160661629|]. apply Forall_nil.
Qed.
Lemma prime_pallas : prime p_pallas.
Proof.
  apply (pocklington _ [(8999194758858563409123804352480028797519453, 2)]); [apply (pock_red_ok _ red_pallas); [reflexivity|exact red_pallas_ok|vm_compute; reflexivity]|].
  apply Forall_cons; [exact prime_p2|]. apply Forall_nil.
Qed.

Lemma prime_good p : prime p -> 2 < p -> good p.
Proof.
  intros P G. split; [lia|]. intros z Hz. unfold inv_z.
  assert (E : forall x e, ppow p x e = x ^ Zpos e mod p).
  { intros x e. rewrite <- powm_ok by lia. induction e as [e IH|e IH|]; cbn [ppow powm]; rewrite ?IH; reflexivity. }
  rewrite E, Z2Pos.id by lia. rewrite Z.mod_mod by lia. rewrite Z.mul_mod_idemp_l by lia.
  rewrite Z.mul_comm, <- Z.pow_succ_r by lia. replace (Z.succ (p - 2)) with (p - 1) by lia.
  apply fermat; auto. intros D. apply Z.divide_pos_le in D; lia.
Qed.
Lemma good_pallas : good p_pallas. Proof. apply prime_good; [exact prime_pallas|reflexivity]. Qed.
Definition Fp : Field := GF p_pallas good_pallas.
Definition lFp (z : Z) : Fp := mk p_pallas good_pallas z.
Definition vFp (x : Fp) : Z := val p_pallas x.

(** ** the scalar field of Pallas, base field of Vesta *)
Definition q_vesta : Z := 28948022309329048855892746252171976963363056481941647379679742748393362948097.
Definition c_vesta : Z := 45560315531506369815346746415080538113.
Definition red_vesta : Z -> Z := red254 c_vesta.
Lemma red_vesta_ok x : red_vesta x mod q_vesta = x mod q_vesta.
Proof. apply red254_ok; reflexivity. Qed.
Lemma prime_125803 : prime 125803. Proof. small_prime. Qed.
Lemma prime_2012849 : prime 2012849.
Proof.
  apply (pocklington _ [(125803, 2)]); [vm_compute; reflexivity|].
  apply Forall_cons; [exact prime_125803|]. apply Forall_nil.
Qed.
Lemma prime_4025699 : prime 4025699.
Proof.
  apply (pocklington _ [(2012849, 2)]); [vm_compute; reflexivity|].
  apply Forall_cons; [exact prime_2012849|]. apply Forall_nil.
Qed.
Lemma prime_80513981 : prime 80513981.
Proof.
  apply (pocklington _ [(4025699, 2)]); [vm_compute; reflexivity|].
  apply Forall_cons; [exact prime_4025699|]. apply Forall_nil.
Qed.
Lemma prime_5247740253619 : prime 5247740253619.
Proof.
  apply (pocklington _ [(80513981, 2)]); [vm_compute; reflexivity|].
  apply Forall_cons; [exact prime_80513981|]. apply Forall_nil.
Qed.
Lemma prime_1690502597179744445941507 : prime 1690502597179744445941507.
Proof.
  apply (pocklington _ [(5247740253619, 2)]); [vm_compute; reflexivity|].
  apply Forall_cons; [exact prime_5247740253619|]. apply Forall_nil.
Qed.
Lemma prime_31649 : prime 31649. Proof. small_prime. Qed.
Lemma prime_12149 : prime 12149. Proof. small_prime. Qed.
Lemma prime_5239247429827 : prime 5239247429827.
Proof.
  apply (pocklington _ [(31649, 2); (12149, 2)]); [vm_compute; reflexivity|].
  apply Forall_cons; [exact prime_31649|]. apply Forall_cons; [exact prime_12149|]. apply Forall_nil.
Qed.
Lemma prime_6091 : prime 6091. Proof. small_prime. Qed.
Lemma prime_5701177 : prime 5701177.
Proof.
  apply (pocklington _ [(6091, 2)]); [vm_compute; reflexivity|].
  apply Forall_cons; [exact prime_6091|]. apply Forall_nil.
Qed.
Lemma prime_399082391 : prime 399082391.
Proof.
  apply (pocklington _ [(5701177, 2)]); [vm_compute; reflexivity|].
  apply Forall_cons; [exact prime_5701177|]. apply Forall_nil.
Qed.
Lemma prime_10427374428728808478656897599072717 : prime 10427374428728808478656897599072717.
Proof.
  apply (pocklington _ [(5239247429827, 2); (399082391, 2)]); [vm_compute; reflexivity|].
  apply Forall_cons; [exact prime_5239247429827|]. apply Forall_cons; [exact prime_399082391|]. apply Forall_nil.
Qed.
Lemma prime_vesta : prime q_vesta.
Proof.
  apply (pocklington _ [(10427374428728808478656897599072717, 2); (1690502597179744445941507, 2)]); [apply (pock_red_ok _ red_vesta); [reflexivity|exact red_vesta_ok|vm_compute; reflexivity]|].
  apply Forall_cons; [exact prime_10427374428728808478656897599072717|]. apply Forall_cons; [exact prime_1690502597179744445941507|]. apply Forall_nil.
Qed.
Lemma good_vesta : good q_vesta. Proof. apply prime_good; [exact prime_vesta|reflexivity]. Qed.
Definition Fq : Field := GF q_vesta good_vesta.
Definition lFq (z : Z) : Fq := mk q_vesta good_vesta z.
Definition vFq (x : Fq) : Z := val q_vesta x.
