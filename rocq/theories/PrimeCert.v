(** Primality certificates: Fermat's little theorem, Pocklington's criterion and
    trial division. *)
From Coq Require Import ZArith Znumtheory List Lia Bool Permutation Arith.
Import ListNotations.
Local Open Scope Z_scope.

(** ** Fermat *)
Lemma mod_eq_divide a b p : p <> 0 -> (a mod p = b mod p <-> (p | a - b)).
Proof.
  intros P. split.
  - intros H. exists (a / p - b / p). rewrite (Z.div_mod a p P) at 1. rewrite (Z.div_mod b p P) at 1. rewrite H. ring.
  - intros [k H]. replace a with (b + k * p) by lia. apply Z.mod_add. exact P.
Qed.
Lemma mod_mul_l a b p : p <> 0 -> (a mod p * b) mod p = (a * b) mod p.
Proof. intros. now rewrite Z.mul_mod_idemp_l. Qed.
Lemma mod_mul_r a b p : p <> 0 -> (a * (b mod p)) mod p = (a * b) mod p.
Proof. intros. now rewrite Z.mul_mod_idemp_r. Qed.

Section Fermat.
  Variable p : Z.
  Hypothesis Pp : prime p.
  Lemma p_gt1 : 1 < p. Proof. destruct Pp; lia. Qed.
  Definition residues : list Z := map Z.of_nat (seq 1 (Z.to_nat (p - 1))).
  Lemma in_residues x : In x residues <-> 1 <= x < p.
  Proof.
    pose proof p_gt1. unfold residues. rewrite in_map_iff. split.
    - intros (k & <- & H1). apply in_seq in H1. lia.
    - intros Hx. exists (Z.to_nat x). rewrite in_seq. lia.
  Qed.
  Lemma residues_nodup : NoDup residues.
  Proof. unfold residues. apply FinFun.Injective_map_NoDup; [intros a b; lia|apply seq_NoDup]. Qed.
  Definition zprod (l : list Z) : Z := fold_right Z.mul 1 l.
  Lemma zprod_perm l l' : Permutation l l' -> zprod l = zprod l'.
  Proof.
    induction 1; cbn [zprod fold_right]; auto.
    - unfold zprod in IHPermutation. now rewrite IHPermutation.
    - ring.
    - congruence.
  Qed.
  Lemma zprod_scale a l : zprod (map (fun x => (a * x) mod p) l) mod p = (a ^ Z.of_nat (length l) * zprod l) mod p.
  Proof.
    pose proof p_gt1. induction l as [|x l IH]; [reflexivity|]. cbn [map zprod fold_right length].
    fold (zprod l). fold (zprod (map (fun x => (a * x) mod p) l)).
    rewrite Z.mul_mod, IH, Z.mod_mod, <- Z.mul_mod by lia. f_equal. rewrite Nat2Z.inj_succ, Z.pow_succ_r by lia. ring.
  Qed.
  Lemma not_div x : 1 <= x < p -> ~ (p | x).
  Proof. intros H D. apply Z.divide_pos_le in D; lia. Qed.
  Lemma zprod_unit l : (forall x, In x l -> 1 <= x < p) -> ~ (p | zprod l).
  Proof.
    pose proof p_gt1. induction l as [|x l IH]; intros H1 D.
    - cbn in D. apply Z.divide_1_r in D. lia.
    - cbn [zprod fold_right] in D. apply prime_mult in D; auto. destruct D as [D|D].
      + apply (not_div x); auto. apply H1. now left.
      + apply IH; auto. intros y Hy. apply H1. now right.
  Qed.
  Theorem fermat a : ~ (p | a) -> a ^ (p - 1) mod p = 1.
  Proof.
    intros N. pose proof p_gt1 as G.
    assert (Inj : forall x y, 1 <= x < p -> 1 <= y < p -> (a * x) mod p = (a * y) mod p -> x = y).
    { intros x y Hx Hy E. apply mod_eq_divide in E; [|lia]. replace (a * x - a * y) with (a * (x - y)) in E by ring.
      apply prime_mult in E; auto. destruct E as [E|E]; [contradiction|].
      destruct (Z.eq_dec x y); auto. exfalso. apply Z.divide_abs_r in E. apply Z.divide_pos_le in E; lia. }
    set (f := fun x => (a * x) mod p).
    assert (R : forall x, In x residues -> In (f x) residues).
    { intros x Hx. apply in_residues in Hx. apply in_residues. unfold f.
      pose proof (Z.mod_pos_bound (a * x) p ltac:(lia)). assert ((a * x) mod p <> 0); [|lia].
      intros E. apply Z.mod_divide in E; [|lia]. apply prime_mult in E; auto. destruct E as [E|E]; [contradiction|]. now apply not_div in E. }
    assert (Pm : Permutation (map f residues) residues).
    { apply NoDup_Permutation_bis.
      - assert (K : forall l, NoDup l -> incl l residues -> NoDup (map f l)).
        { induction l as [|x l IH]; intros D I; cbn; [constructor|]. inversion D; subst. constructor.
          - rewrite in_map_iff. intros (y & E & Hy). apply Inj in E.
            + subst. contradiction.
            + apply in_residues, I. now right.
            + apply in_residues, I. now left.
          - apply IH; auto. intros y Hy. apply I. now right. }
        apply K; [apply residues_nodup|apply incl_refl].
      - now rewrite map_length.
      - intros y Hy. apply in_map_iff in Hy. destruct Hy as (x & <- & Hx). now apply R. }
    pose proof (zprod_scale a residues) as S. fold f in S. rewrite (zprod_perm _ _ Pm) in S.
    assert (L : Z.of_nat (length residues) = p - 1) by (unfold residues; rewrite map_length, seq_length; lia). rewrite L in S.
    apply mod_eq_divide in S; [|lia].
    replace (zprod residues - a ^ (p - 1) * zprod residues) with ((1 - a ^ (p - 1)) * zprod residues) in S by ring.
    apply prime_mult in S; auto. destruct S as [S|S].
    - apply mod_eq_divide in S; [|lia]. rewrite <- S. apply Z.mod_small. lia.
    - exfalso. eapply zprod_unit; [|exact S]. intros x. apply in_residues.
  Qed.
End Fermat.

(** ** modular powers *)
Section Pow.
  Variable n : Z.
  Hypothesis Hn : 1 < n.
  Fixpoint powm (x : Z) (e : positive) : Z :=
    match e with
    | xH => x mod n
    | xO e' => let r := powm x e' in (r * r) mod n
    | xI e' => let r := powm x e' in (((r * r) mod n) * x) mod n
    end.
  Lemma powm_ok x e : powm x e = x ^ Zpos e mod n.
  Proof.
    induction e as [e IH|e IH|]; cbn [powm].
    - rewrite IH. replace (Zpos e~1) with (Zpos e + Zpos e + 1) by lia. rewrite !Z.pow_add_r, Z.pow_1_r by lia.
      rewrite mod_mul_l by lia. rewrite Z.mul_mod, <- Z.mul_mod by lia.
      rewrite <- Z.mul_assoc, mod_mul_l by lia. rewrite Z.mul_comm, <- Z.mul_assoc, mod_mul_l by lia. f_equal. ring.
    - rewrite IH. replace (Zpos e~0) with (Zpos e + Zpos e) by lia. rewrite Z.pow_add_r by lia. now rewrite <- Z.mul_mod by lia.
    - now rewrite Z.pow_1_r.
  Qed.
End Pow.

(** ** prime divisors *)
Lemma prime_divisor n : 1 < n -> exists r, prime r /\ (r | n).
Proof.
  intros H. assert (K : forall m, 0 <= m -> 1 < m -> exists r, prime r /\ (r | m)).
  { apply (Zlt_0_ind (fun m => 1 < m -> exists r, prime r /\ (r | m))). intros m IH _ Hm.
    destruct (prime_dec m) as [P|NP]; [exists m; split; auto; apply Z.divide_refl|].
    destruct (not_prime_divide m Hm NP) as (d & Hd & D). destruct (IH d) as (r & P & Dr); [lia|lia|].
    exists r. split; auto. eapply Z.divide_trans; eauto. }
  apply K; lia.
Qed.
Lemma small_prime_divisor n : 1 < n -> ~ prime n -> exists r, prime r /\ (r | n) /\ r * r <= n.
Proof.
  intros Hn NP. destruct (not_prime_divide n Hn NP) as (d & Hd & [c E]).
  assert (1 < c < n) by nia.
  assert (exists m, 1 < m /\ (m | n) /\ m * m <= n) as (m & M1 & M2 & M3).
  { destruct (Z_le_gt_dec d c).
    - exists d. split; [lia|]. split; [exists c; auto|nia].
    - exists c. split; [lia|]. split; [exists d; lia|nia]. }
  destruct (prime_divisor m M1) as (r & P & D). exists r. split; auto. split; [eapply Z.divide_trans; eauto|].
  apply Z.divide_pos_le in D; [|lia]. destruct P. nia.
Qed.

(** ** Pocklington *)
Lemma pow_mod_1 b e k r : 1 < r -> 0 <= e -> 0 <= k -> b ^ e mod r = 1 -> b ^ (e * k) mod r = 1.
Proof.
  intros R E K H. rewrite Z.pow_mul_r by lia. generalize dependent k.
  apply (natlike_ind (fun k => (b ^ e) ^ k mod r = 1)).
  - cbn. apply Z.mod_small. lia.
  - intros k Hk IH. rewrite Z.pow_succ_r by lia. rewrite Z.mul_mod, H, IH by lia. apply Z.mod_small. lia.
Qed.
Lemma bezout_pos q m u v : 1 < q -> 0 < m -> u * q + v * m = 1 -> exists s t, 0 <= s /\ 0 <= t /\ s * q = 1 + t * m.
Proof.
  intros Q M E. set (A := Z.abs u + Z.abs v). assert (0 <= A /\ - u <= A /\ v <= A) as (A0 & A1 & A2) by (unfold A; lia).
  clearbody A. exists (u + A * m), (A * q - v).
  assert (A * 1 <= A * m) by (apply Z.mul_le_mono_nonneg_l; lia).
  assert (A * 1 <= A * q) by (apply Z.mul_le_mono_nonneg_l; lia).
  split; [lia|]. split; [lia|].
  replace ((u + A * m) * q) with (u * q + A * q * m) by ring.
  replace (u * q) with (1 - v * m) by lia. ring.
Qed.
Lemma zprod_pos qs : Forall prime qs -> 0 < zprod qs.
Proof.
  induction 1 as [|q qs P _ IH]; [cbn; lia|]. cbn [zprod fold_right]. fold (zprod qs). pose proof (p_gt1 q P). nia.
Qed.
Lemma order_divides r a M q : prime r -> prime q -> 0 < M -> a ^ (q * M) mod r = 1 -> a ^ M mod r <> 1 -> (q | r - 1).
Proof.
  intros Pr Pq HM H N. pose proof (p_gt1 r Pr) as R. pose proof (p_gt1 q Pq) as Q.
  destruct (Zdivide_dec q (r - 1)) as [D|D]; auto. exfalso. apply N.
  assert (na : ~ (r | a)).
  { intros [k ->]. rewrite Z.pow_mul_l in H. rewrite Z.mul_mod in H by lia.
    replace (r ^ (q * M)) with (r ^ (q * M - 1) * r) in H.
    - rewrite Z.mod_mul, Z.mul_0_r, Z.mod_0_l in H by lia. lia.
    - rewrite Z.mul_comm, <- Z.pow_succ_r by nia. f_equal. lia. }
  assert (nM : ~ (r | a ^ M)).
  { intros D'. apply na. clear - D' HM Pr. assert (K : forall k, 0 <= k -> (r | a ^ k) -> (r | a)); [|apply (K M); auto; lia].
    apply (natlike_ind (fun k => (r | a ^ k) -> (r | a))).
    - cbn. intros E. exfalso. pose proof (p_gt1 r Pr). apply Z.divide_1_r in E. lia.
    - intros k Hk IH E. rewrite Z.pow_succ_r in E by lia. apply prime_mult in E; auto. destruct E; auto. }
  set (b := a ^ M) in *.
  assert (Hq : b ^ q mod r = 1) by (unfold b; rewrite <- Z.pow_mul_r by lia; rewrite Z.mul_comm; exact H).
  pose proof (fermat r Pr b nM) as Hr.
  assert (G : Zis_gcd q (r - 1) 1) by (apply prime_rel_prime in D; auto).
  destruct (Zis_gcd_bezout q (r - 1) 1 G) as [u v E].
  (* u q + v (r-1) = 1; shift u by a multiple of r-1 to make it nonnegative *)
  assert (exists s t, 0 <= s /\ 0 <= t /\ s * q = 1 + t * (r - 1)) as (s & t & Hs & Ht & K).
  { apply (bezout_pos q (r - 1) u v); auto; lia. }
  assert (b ^ (1 + t * (r - 1)) mod r = 1).
  { rewrite <- K, Z.mul_comm. apply pow_mod_1; auto; lia. }
  rewrite Z.pow_add_r, Z.pow_1_r in H0 by (try apply Z.mul_nonneg_nonneg; lia). rewrite Z.mul_mod in H0 by lia.
  rewrite (Z.mul_comm t), (pow_mod_1 b (r - 1) t r) in H0 by (auto; lia). rewrite Z.mul_1_r, Z.mod_mod in H0 by lia. exact H0.
Qed.
Lemma primes_product qs m : Forall prime qs -> NoDup qs -> Forall (fun q => (q | m)) qs -> (zprod qs | m).
Proof.
  intros P D H. induction qs as [|q qs IH]; [apply Z.divide_1_l|]. inversion P; inversion D; inversion H; subst. cbn [zprod fold_right].
  fold (zprod qs).
  destruct (IH ltac:(auto) ltac:(auto) ltac:(auto)) as [k E]. rewrite E in *. apply Z.mul_divide_mono_r.
  apply prime_mult in H10; auto. destruct H10 as [X|X]; auto. exfalso. apply H6.
  clear - X H2 H3. induction qs as [|q' qs IH]; cbn [zprod fold_right] in X.
  - apply Z.divide_1_r in X. pose proof (p_gt1 q H2). lia.
  - inversion H3; subst. apply prime_mult in X; auto. destruct X as [X|X]; [|right; apply IH; auto]. left.
    apply prime_div_prime in X; auto.
Qed.
(** certificate entries: (q, a) with a^(n-1) = 1 and gcd (a^((n-1)/q) - 1, n) = 1 mod n *)
Definition pock_entry (n : Z) (qa : Z * Z) : bool :=
  let '(q, a) := qa in
  (1 <? q) && ((n - 1) mod q =? 0) && (powm n a (Z.to_pos (n - 1)) =? 1) &&
  (Z.gcd (powm n a (Z.to_pos ((n - 1) / q)) - 1) n =? 1).
Fixpoint nodupb (l : list Z) : bool :=
  match l with [] => true | x :: r => negb (existsb (Z.eqb x) r) && nodupb r end.
Lemma nodupb_ok l : nodupb l = true -> NoDup l.
Proof.
  induction l as [|x l IH]; intros H; [constructor|]. cbn in H. apply andb_true_iff in H. destruct H as [H1 H2]. constructor; auto.
  intros I. apply negb_true_iff in H1. rewrite <- not_true_iff_false in H1. apply H1. apply existsb_exists. exists x. split; auto. apply Z.eqb_refl.
Qed.
Definition pock (n : Z) (cert : list (Z * Z)) : bool :=
  (1 <? n) && forallb (pock_entry n) cert && nodupb (map fst cert) && (n <? zprod (map fst cert) * zprod (map fst cert)).
Theorem pocklington n cert : pock n cert = true -> Forall prime (map fst cert) -> prime n.
Proof.
  unfold pock. rewrite !andb_true_iff. intros [[[H1 H2] H3] H4] P. apply Z.ltb_lt in H1, H4. apply nodupb_ok in H3.
  destruct (prime_dec n) as [|NP]; auto. exfalso.
  destruct (small_prime_divisor n H1 NP) as (r & Pr & Dr & Sr). pose proof (p_gt1 r Pr) as R.
  assert (D : (zprod (map fst cert) | r - 1)).
  { apply primes_product; auto. apply Forall_forall. intros q Hq. pose proof Hq as Hq'. apply in_map_iff in Hq.
    destruct Hq as ((q' & a) & E & I). cbn in E. subst q'. rewrite forallb_forall in H2. apply H2 in I. unfold pock_entry in I.
    rewrite !andb_true_iff in I. destruct I as [[[I1 I2] I3] I4]. apply Z.ltb_lt in I1. apply Z.eqb_eq in I2, I3, I4.
    apply Z.mod_divide in I2; [|lia]. destruct I2 as [M EM]. assert (0 < M) by nia.
    rewrite Forall_forall in P. apply P in Hq'.
    rewrite powm_ok, Z2Pos.id in I3 by lia. replace ((n - 1) / q) with M in I4 by (rewrite EM, Z.div_mul; lia).
    rewrite powm_ok, Z2Pos.id in I4 by lia.
    destruct Dr as [c Ec].
    assert (T : forall x, (x mod n) mod r = x mod r).
    { intros x. symmetry. apply mod_eq_divide; [lia|]. rewrite Z.mod_eq by lia. exists (c * (x / n)). rewrite Ec. ring. }
    apply (order_divides r a M q); auto.
    - rewrite Z.mul_comm, <- EM, <- T, I3. apply Z.mod_small. lia.
    - intros E. assert (K : (r | Z.gcd (a ^ M mod n - 1) n)).
      { apply Z.gcd_greatest; [|exists c; auto]. apply mod_eq_divide; [lia|]. rewrite T, E. symmetry. apply Z.mod_small. lia. }
      rewrite I4 in K. apply Z.divide_1_r in K. lia. }
  apply Z.divide_pos_le in D; [|lia]. pose proof (zprod_pos _ P). set (m := zprod (map fst cert)) in *. clearbody m.
  assert (m * m <= (r - 1) * (r - 1)) by (apply Z.mul_le_mono_nonneg; lia). lia.
Qed.

(** ** trial division *)
Fixpoint trial (fuel : nat) (k n : Z) : bool :=
  if n <? k * k then true
  else match fuel with
       | O => false
       | S f => negb (n mod k =? 0) && trial f (k + 1) n
       end.
Lemma trial_ok fuel : forall k n, 1 < k -> trial fuel k n = true -> forall d, k <= d -> d * d <= n -> ~ (d | n).
Proof.
  induction fuel as [|fuel IH]; intros k n Hk H d Hd S D; cbn [trial] in H; destruct (n <? k * k) eqn:E.
  - apply Z.ltb_lt in E. nia.
  - discriminate.
  - apply Z.ltb_lt in E. nia.
  - apply andb_true_iff in H. destruct H as [H1 H2]. destruct (Z.eq_dec d k) as [->|N].
    + apply negb_true_iff, Z.eqb_neq in H1. apply H1. apply Z.mod_divide; auto. lia.
    + apply (IH (k + 1) n) with (d := d); auto; lia.
Qed.
Theorem trial_prime n fuel : 1 < n -> trial fuel 2 n = true -> prime n.
Proof.
  intros H T. destruct (prime_dec n) as [|NP]; auto. exfalso. destruct (small_prime_divisor n H NP) as (r & Pr & Dr & Sr).
  pose proof (p_gt1 r Pr). apply (trial_ok fuel 2 n) with (d := r); auto; lia.
Qed.
