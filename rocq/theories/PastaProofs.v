(** Facts about prime fields of two-adicity S and about matrices over them, by which the
    Pasta constants are checked. *)
From Coq Require Import List Arith NArith ZArith Znumtheory Bool Lia Ring Field.
From Verif Require Import FieldDef GF PrimeCert Pasta ArithModel FFTModel SpongeModel SpongeSpec EndoSpec PastaSpec PastaModel.
Import ListNotations.
Local Open Scope nat_scope.

(** ** literals *)
Lemma digits_spec : forall fuel n, N.size_nat n <= fuel ->
  digits_value (repr_digits fuel n) = n /\ Forall is_digit (repr_digits fuel n) /\ last (repr_digits fuel n) 1%N <> 0%N.
Proof.
  induction fuel as [|fuel IH]; intros n Hn; cbn [repr_digits].
  - destruct n as [|p]; [repeat split; [constructor|discriminate]|]. destruct p; cbn in Hn; lia.
  - destruct (N.eqb_spec n 0) as [->|Hz]; [repeat split; [constructor|discriminate]|].
    assert (L : N.land n (2 ^ 64 - 1) = (n mod 2 ^ 64)%N) by (replace (2 ^ 64 - 1)%N with (N.ones 64) by reflexivity; apply N.land_ones).
    rewrite L, N.shiftr_div_pow2.
    assert (Sz : N.size_nat (n / 2 ^ 64) <= fuel).
    { assert (Hs : forall m, N.size_nat m = N.to_nat (N.size m)) by (intros [|p]; [reflexivity|]; cbn; induction p; cbn; rewrite ?IHp, ?Pos2Nat.inj_succ; reflexivity).
      rewrite Hs in *. destruct (N.eq_dec (n / 2 ^ 64) 0) as [E|E]; [rewrite E; cbn; lia|].
      rewrite N.size_log2 in * by assumption. rewrite <- N.shiftr_div_pow2, N.log2_shiftr. assert (2 ^ 64 <= n)%N by (apply N.nlt_ge; intros X; apply E, N.div_small, X).
      assert (64 <= N.log2 n)%N by (apply N.log2_le_pow2; lia). lia. }
    destruct (IH _ Sz) as (V & D & La). cbn [digits_value]. rewrite V. repeat split.
    + rewrite N.add_comm, <- N.div_mod; [reflexivity|discriminate].
    + constructor; [apply N.mod_lt; discriminate|exact D].
    + destruct (repr_digits fuel (n / 2 ^ 64)) as [|d ds] eqn:E; [|exact La]. cbn [last]. cbn [digits_value] in V.
      assert (n < 2 ^ 64)%N by (rewrite (N.div_mod n (2 ^ 64)), <- V by discriminate; rewrite N.mul_0_r; apply N.mod_lt; discriminate).
      rewrite N.mod_small by assumption. exact Hz.
Qed.
Lemma digits_bound ds : Forall is_digit ds -> (digits_value ds < 2 ^ (64 * N.of_nat (length ds)))%N.
Proof.
  induction ds as [|d ds IH]; intros H; [reflexivity|]. inversion H as [|x y Hd Hr]; subst. specialize (IH Hr). cbn [digits_value length].
  rewrite Nat2N.inj_succ. replace (64 * N.succ (N.of_nat (length ds)))%N with (64 + 64 * N.of_nat (length ds))%N by lia.
  rewrite N.pow_add_r. unfold is_digit in Hd. nia.
Qed.
Lemma digits_low ds : ds <> [] -> last ds 1%N <> 0%N -> (2 ^ (64 * N.of_nat (length ds - 1)) <= digits_value ds)%N.
Proof.
  induction ds as [|d ds IH]; intros Ne La; [now elim Ne|]. destruct ds as [|e ds].
  - cbn in La |- *. lia.
  - assert (IH' := IH ltac:(discriminate) La). cbn [digits_value length] in *.
    replace (S (S (length ds)) - 1) with (S (length ds)) by lia. replace (S (length ds) - 1) with (length ds) in IH' by lia.
    rewrite Nat2N.inj_succ. replace (64 * N.succ (N.of_nat (length ds)))%N with (64 + 64 * N.of_nat (length ds))%N by lia. rewrite N.pow_add_r. nia.
Qed.
Lemma digits_inj : forall a b, length a = length b -> Forall is_digit a -> Forall is_digit b -> digits_value a = digits_value b -> a = b.
Proof.
  induction a as [|x a IH]; intros [|y b] L A B E; try discriminate; [reflexivity|]. inversion A; inversion B; subst. cbn [digits_value] in E. unfold is_digit in *.
  assert (Hx : x = y).
  { assert (M := f_equal (fun n => (n mod 2 ^ 64)%N) E). cbv beta in M. rewrite !(N.mul_comm (2 ^ 64)), !N.mod_add in M by discriminate. now rewrite !N.mod_small in M. }
  subst y. f_equal. apply IH; auto. apply N.add_cancel_l in E. now apply N.mul_cancel_l in E.
Qed.
Lemma digits_pad ds k : digits_value (ds ++ repeat 0%N k) = digits_value ds.
Proof. induction ds as [|d ds IH]; cbn [app digits_value]; [|now rewrite IH]. induction k as [|k IHk]; [reflexivity|]. cbn [repeat digits_value]. rewrite IHk. reflexivity. Qed.
Lemma repr256_spec n ds : repr256 n = Some ds <-> length ds = 4 /\ Forall is_digit ds /\ digits_value ds = n.
Proof.
  unfold repr256. destruct (digits_spec (N.size_nat n) n (le_n _)) as (V & D & La). set (r := repr_digits (N.size_nat n) n) in *. clearbody r.
  destruct (Nat.ltb_spec 4 (length r)) as [L|L].
  - split; [discriminate|]. intros (L4 & Dd & Vd). exfalso. pose proof (digits_bound ds Dd) as Up. rewrite L4, Vd in Up.
    assert (Lo := digits_low r ltac:(intros ->; cbn in L; lia) La). rewrite V in Lo.
    assert (2 ^ (64 * N.of_nat 4) <= 2 ^ (64 * N.of_nat (length r - 1)))%N by (apply N.pow_le_mono_r; lia). lia.
  - assert (P : length (r ++ repeat 0%N (4 - length r)) = 4 /\ Forall is_digit (r ++ repeat 0%N (4 - length r)) /\ digits_value (r ++ repeat 0%N (4 - length r)) = n).
    { rewrite app_length, repeat_length, digits_pad. split; [lia|]. split; [|exact V]. apply Forall_app. split; [exact D|]. apply Forall_forall. intros x Hx. apply repeat_spec in Hx. subst x. reflexivity. }
    destruct P as (P1 & P2 & P3). split.
    + intros E. assert (E' : r ++ repeat 0%N (4 - length r) = ds) by congruence. subst ds. auto.
    + intros (L4 & Dd & Vd). f_equal. apply digits_inj; congruence || auto.
Qed.
Lemma raw_value_digits ds : raw_value ds = Z.of_N (digits_value ds).
Proof. unfold raw_value. induction ds as [|d ds IH]; [reflexivity|]. cbn [fold_right digits_value]. rewrite IH, N2Z.inj_add, N2Z.inj_mul. reflexivity. Qed.

(** ** fields whose multiplicative group has an exponent N *)
Section Group.
  Variable F : Field.
  Add Field FFu14 : (f_theory F).
  Open Scope f_scope.
  Lemma fzero_mul (x y : F) : x * y = 0 -> x = 0 \/ y = 0.
  Proof. intros E. destruct (feqb_spec x 0) as [->|Nx]; [now left|right]. apply (fmul_cancel_l F x); [exact Nx|]. rewrite E. ring. Qed.

  (** *** the elements of order a power of two, and square roots *)
  Lemma sq_one (x : F) : x * x = 1 -> x = 1 \/ x = - (1).
  Proof.
    intros E. assert (Z : (x - 1) * (x + 1) = 0) by (transitivity (x * x - 1); [ring|rewrite E; ring]).
    apply fzero_mul in Z. destruct Z as [Z|Z]; [left|right].
    - exact (proj1 (fsub_eq_0 F x 1) Z).
    - transitivity (x + 1 - 1); [ring|rewrite Z; ring].
  Qed.
  Lemma torsion : forall k (g x : F), g ^ (2 ^ k) = - (1) -> x ^ (2 ^ S k) = 1 -> exists i, (i < 2 ^ S k)%nat /\ x = g ^ i.
  Proof.
    induction k as [|k IH]; intros g x Hgk Hx.
    - assert (Eg : g = - (1)) by (rewrite <- Hgk; symmetry; apply (fpow_1 F)). assert (E : x * x = 1) by (rewrite <- Hx; cbn; ring). destruct (sq_one x E) as [->| ->].
      + exists 0%nat. split; [cbn; lia|reflexivity].
      + exists 1%nat. split; [cbn; lia|]. rewrite Eg. cbn. ring.
    - assert (Hg2 : (g * g) ^ (2 ^ k) = - (1)) by (rewrite <- Hgk; change (2 ^ S k)%nat with (2 * 2 ^ k)%nat; rewrite fpow_mul; f_equal; cbn; ring).
      assert (Hx2 : (x * x) ^ (2 ^ S k) = 1) by (rewrite <- Hx; change (2 ^ S (S k))%nat with (2 * 2 ^ S k)%nat; rewrite fpow_mul; f_equal; cbn; ring).
      destruct (IH _ _ Hg2 Hx2) as (i & Hi & E). rewrite fpow_mul_base in E.
      assert (Ng : g <> 0). { intros ->. rewrite fpow_zero in Hgk by (apply Nat.pow_nonzero; lia). apply (f1_neq_0 F). transitivity (- - (1 : F)); [ring|]. rewrite <- Hgk. ring. }
      assert (Ni : g ^ i <> 0) by now apply fpow_nonzero.
      destruct (sq_one (x * finv (g ^ i))) as [Q|Q].
      { transitivity (x * x * (finv (g ^ i) * finv (g ^ i))); [ring|]. rewrite E. field. exact Ni. }
      + exists i. split; [cbn in *; lia|]. transitivity (x * finv (g ^ i) * g ^ i); [field; exact Ni|]. rewrite Q. ring.
      + exists (i + 2 ^ S k)%nat. split; [cbn in *; lia|]. rewrite fpow_add, Hgk. transitivity (x * finv (g ^ i) * g ^ i); [field; exact Ni|]. rewrite Q. ring.
  Qed.
  Variable N : nat.
  Hypothesis fermat_f : forall x : F, x <> 0 -> x ^ N = 1.
  Section Squares.
    Variables (S' h : nat) (gen : F).
    (* the odd part of N is 2 h + 1 *)
    Hypothesis Hp : N = ((2 * h + 1) * 2 ^ S S')%nat.
    Hypothesis odd : (1 : F) + 1 <> 0.
    Hypothesis Hgen : (gen ^ (2 * h + 1)) ^ (2 ^ S') = - (1).
    Lemma gen_nz : gen <> 0.
    Proof. intros E. rewrite E, (fpow_zero F (2 * h + 1)), fpow_zero in Hgen; [|apply Nat.pow_nonzero; lia|lia]. apply (f1_neq_0 F). transitivity (- - (1 : F)); [ring|]. rewrite <- Hgen. ring. Qed.
    Lemma even_power (x : F) i : x <> 0 -> x ^ (2 * h + 1) = (gen ^ (2 * h + 1)) ^ (2 * i) -> square x.
    Proof.
      intros Nx E. set (g := gen ^ (2 * h + 1)) in *. assert (Ng : g <> 0) by (apply fpow_nonzero, gen_nz). assert (Ni : g ^ i <> 0) by now apply fpow_nonzero.
      exists (x ^ (h + 1) * finv (g ^ i)). transitivity (x ^ (h + 1) * x ^ (h + 1) * (finv (g ^ i) * finv (g ^ i))); [ring|].
      rewrite fpow_sq. replace (2 * (h + 1))%nat with (1 + (2 * h + 1))%nat by lia. rewrite fpow_add, E, <- fpow_sq, fpow_1. field. exact Ni.
    Qed.
    Theorem square_or (x : F) : square x \/ square (gen * x).
    Proof.
      destruct (feqb_spec x 0) as [->|Nx]; [left; exists 0; ring|].
      assert (T : (x ^ (2 * h + 1)) ^ (2 ^ S S') = 1) by (rewrite <- fpow_mul, <- Hp; now apply fermat_f).
      destruct (torsion _ _ _ Hgen T) as (i & _ & E). destruct (Nat.Even_or_Odd i) as [[j ->]|[j ->]].
      - left. exact (even_power x j Nx E).
      - right. apply (even_power (gen * x) (j + 1)).
        + intros Z. apply fzero_mul in Z. destruct Z as [Z|Z]; [exact (gen_nz Z)|exact (Nx Z)].
        + rewrite fpow_mul_base, E. replace (2 * (j + 1))%nat with (1 + (2 * j + 1))%nat by lia. rewrite (fpow_add F (gen ^ (2 * h + 1)) 1), fpow_1. reflexivity.
    Qed.
    Theorem gen_nonsquare : ~ square gen.
    Proof.
      intros (s & E). assert (Ns : s <> 0) by (intros ->; apply gen_nz; rewrite <- E; ring).
      assert (X : s ^ N = 1) by now apply fermat_f.
      rewrite Hp in X. replace ((2 * h + 1) * 2 ^ S S')%nat with (2 * ((2 * h + 1) * 2 ^ S'))%nat in X by (cbn [Nat.pow]; nia).
      rewrite fpow_mul in X. replace (s ^ 2) with gen in X by (rewrite <- E; cbn; ring). rewrite fpow_mul, Hgen in X.
      apply odd. rewrite <- X at 1. ring.
    Qed.
  End Squares.

  (** *** fifth powers, cubes *)
  Lemma fifth_inj (d k : nat) (x y : F) : (5 * d = 1 + k * N)%nat -> x ^ 5 = y ^ 5 -> x = y.
  Proof.
    intros Hd E. assert (R : forall z : F, (z ^ 5) ^ d = z).
    { intros z. rewrite <- fpow_mul, Hd. destruct (feqb_spec z 0) as [->|Nz]; [apply fpow_zero; lia|]. rewrite fpow_add, fpow_1, Nat.mul_comm, fpow_mul, fermat_f, fpow_one by exact Nz. ring. }
    rewrite <- (R x), <- (R y). now rewrite E.
  Qed.
  Lemma fifth_onto (d k : nat) (x : F) : (5 * d = 1 + k * N)%nat -> (x ^ d) ^ 5 = x.
  Proof.
    intros Hd. rewrite <- fpow_mul, Nat.mul_comm, Hd. destruct (feqb_spec x 0) as [->|Nz]; [apply fpow_zero; lia|].
    rewrite fpow_add, fpow_1, Nat.mul_comm, fpow_mul, fermat_f, fpow_one by exact Nz. ring.
  Qed.
  Lemma not_cube (a : F) (m : nat) : (N = 3 * m)%nat -> a <> 0 -> a ^ m <> 1 -> forall c : F, c ^ 3 <> a.
  Proof.
    intros Hm Na Nm c E. apply Nm. rewrite <- E, <- fpow_mul, <- Hm. apply fermat_f. intros ->. apply Na. rewrite <- E. cbn. ring.
  Qed.

End Group.

(** ** prime fields *)
Section Prime.
  Variables (p : Z) (Pp : prime p) (Hg : good p).
  Local Notation F := (GF p Hg).
  Local Notation inj := (mk p Hg : Z -> F).
  Add Field FFu13 : (f_theory F).
  Open Scope f_scope.
  Local Notation v := (val p).
  Lemma pgt : (1 < p)%Z. Proof. exact (proj1 Hg). Qed.
  Lemma inj_ext (a b : Z) : (a mod p)%Z = (b mod p)%Z -> inj a = inj b.
  Proof. intros E. apply gf_ext. now rewrite !val_mk. Qed.
  Lemma inj_mod a : inj (a mod p)%Z = inj a.
  Proof. pose proof pgt. apply inj_ext. apply Z.mod_mod. lia. Qed.
  Lemma inj_val (x : F) : inj (v x) = x.
  Proof. apply gf_ext. rewrite val_mk. apply Z.mod_small. exact (val_range p x). Qed.
  Lemma inj_add a b : inj (a + b)%Z = inj a + inj b.
  Proof. pose proof pgt. apply gf_ext. cbn [fadd GF gadd]. unfold gadd. rewrite !val_mk. rewrite Z.add_mod by lia. reflexivity. Qed.
  Lemma inj_mul a b : inj (a * b)%Z = inj a * inj b.
  Proof. pose proof pgt. apply gf_ext. cbn [fmul GF]. unfold gmul. rewrite !val_mk. rewrite Z.mul_mod by lia. reflexivity. Qed.
  Lemma inj_sub a b : inj (a - b)%Z = inj a - inj b.
  Proof. pose proof pgt. apply gf_ext. cbn [fsub GF]. unfold gsub. rewrite !val_mk. rewrite Zminus_mod. reflexivity. Qed.
  Lemma inj_opp a : inj (- a)%Z = - inj a.
  Proof. pose proof pgt. transitivity (inj (0 - a)%Z); [f_equal; lia|]. rewrite inj_sub. change (inj 0%Z) with (0 : F). ring. Qed.
  Lemma inj_pow a (n : nat) : inj (a ^ Z.of_nat n)%Z = inj a ^ n.
  Proof.
    induction n as [|n IH]; [reflexivity|]. rewrite Nat2Z.inj_succ, Z.pow_succ_r by lia. rewrite inj_mul, IH. reflexivity.
  Qed.
  Lemma inj_eq a b : inj a = inj b -> (a mod p)%Z = (b mod p)%Z.
  Proof. intros E. apply (f_equal v) in E. now rewrite !val_mk in E. Qed.
  (* [red] computes representatives *)
  Variable red : Z -> Z.
  Hypothesis Hred : forall x, (red x mod p = x mod p)%Z.
  Lemma inj_red a : inj (red a) = inj a.
  Proof. apply inj_ext, Hred. Qed.
  (* a power computed by squaring *)
  Lemma pow_z a e b : (0 < e)%Z -> (powr red a (Z.to_pos e) mod p =? b mod p)%Z = true -> inj a ^ Z.to_nat e = inj b.
  Proof.
    intros He E. pose proof pgt. apply Z.eqb_eq in E. rewrite (powr_ok p red), powm_ok, Z2Pos.id in E by (assumption || lia). rewrite <- inj_pow, Z2Nat.id by lia. now apply inj_ext.
  Qed.
  Lemma fermat_f (x : F) : x <> 0 -> x ^ Z.to_nat (p - 1) = 1.
  Proof.
    intros Hx. pose proof pgt. rewrite <- (inj_val x). rewrite <- inj_pow, Z2Nat.id by lia. change (1 : F) with (inj 1%Z). apply inj_ext.
    rewrite fermat; [rewrite Z.mod_small; lia|exact Pp|]. intros D. apply Hx. rewrite <- (inj_val x). change (0 : F) with (inj 0%Z). apply inj_ext.
    destruct D as [c ->]. rewrite Z.mod_mul, Z.mod_0_l; lia.
  Qed.
  (** *** matrices *)
  Fixpoint dot (r : list Z) (x : list F) : F :=
    match r, x with a :: r', b :: x' => inj a * b + dot r' x' | _, _ => 0 end.
  Definition elim1 (a : Z) (h : Z) (u w : Z) : Z := red (a * w - h * u)%Z.
  Fixpoint zip2 (f : Z -> Z -> Z) (a b : list Z) : list Z :=
    match a, b with x :: a', y :: b' => f x y :: zip2 f a' b' | _, _ => [] end.
  Definition eliminate (piv r : list Z) : list Z := zip2 (elim1 (hd 0%Z piv) (hd 0%Z r)) (tl piv) (tl r).
  Fixpoint regular (w : nat) (m : list (list Z)) : bool :=
    match w with
    | O => true
    | S w' => ((fix rows (m : list (list Z)) : bool :=
                  match m with
                  | [] => true
                  | r :: rest => negb (hd 0 r mod p =? 0)%Z && regular w' (map (eliminate r) rest) && rows rest
                  end) m && regular w' (map (@tl Z) m))%bool
    end.
  Fixpoint rows_ok (w' : nat) (m : list (list Z)) : bool :=
    match m with
    | [] => true
    | r :: rest => negb (hd 0 r mod p =? 0)%Z && regular w' (map (eliminate r) rest) && rows_ok w' rest
    end%bool.
  Lemma regular_S w' m : regular (S w') m = (rows_ok w' m && regular w' (map (@tl Z) m))%bool.
  Proof. cbn [regular]. f_equal. induction m as [|r m IH]; [reflexivity|]. cbn [rows_ok]. now rewrite IH. Qed.
  Inductive sub {A : Type} : list A -> list A -> Prop :=
  | sub_nil : sub [] []
  | sub_skip x a b : sub a b -> sub a (x :: b)
  | sub_take x a b : sub a b -> sub (x :: a) (x :: b).
  Lemma sub_map {A B : Type} (f : A -> B) a b : sub a b -> sub (map f a) (map f b).
  Proof. induction 1; cbn; [apply sub_nil|apply sub_skip|apply sub_take]; auto. Qed.
  Lemma sub_in {A : Type} (a b : list A) x : sub a b -> In x a -> In x b.
  Proof. induction 1 as [|y a b H IH|y a b H IH]; intros I; auto; [right; auto|destruct I as [->|I]; [now left|right; auto]]. Qed.
  Lemma dot_zip a h : forall u w x, length u = length x -> length w = length x ->
    dot (zip2 (elim1 a h) u w) x = inj a * dot w x - inj h * dot u x.
  Proof.
    induction u as [|b u IH]; intros [|c w] [|y x] Lu Lw; try discriminate; cbn [zip2 dot]; [ring|].
    rewrite IH by (cbn in *; lia). unfold elim1. rewrite inj_red, inj_sub, !inj_mul. ring.
  Qed.
  Lemma weight_zero (x : list F) r : weight x = 0%nat -> dot r x = 0.
  Proof.
    revert r. induction x as [|y x IH]; intros [|a r] H; cbn [dot weight] in *; try reflexivity. destruct (feqb_spec y 0) as [->|N]; [|discriminate]. rewrite IH by lia. ring.
  Qed.
  Lemma zip2_length f : forall a b, length (zip2 f a b) = Nat.min (length a) (length b).
  Proof. induction a as [|x a IH]; intros [|y b]; cbn; auto. Qed.
  Lemma regular_ok : forall w m, regular w m = true -> Forall (fun r => length r = w) m ->
    forall x R, length x = w -> sub R m -> Forall (fun r => dot r x = 0) R -> (weight x <= length R)%nat -> weight x = 0%nat.
  Proof.
    induction w as [|w IH]; intros m G W x R Lx Sb Zs Le.
    - destruct x; [reflexivity|discriminate].
    - destruct x as [|y x]; [discriminate|]. injection Lx as Lx. rewrite regular_S in G. apply andb_true_iff in G. destruct G as [G1 G2].
      cbn [weight] in Le |- *. destruct (feqb_spec y 0) as [->|Ny].
      + cbn [Nat.add] in *. apply (IH (map (@tl Z) m) G2) with (R := map (@tl Z) R); auto.
        * apply Forall_forall. intros r Hr. apply in_map_iff in Hr. destruct Hr as (r0 & <- & I). rewrite Forall_forall in W. specialize (W _ I). destruct r0; [discriminate|]. cbn in *. lia.
        * now apply sub_map.
        * apply Forall_forall. intros r Hr. apply in_map_iff in Hr. destruct Hr as (r0 & <- & I). rewrite Forall_forall in W, Zs. specialize (Zs _ I). specialize (W _ (sub_in _ _ _ Sb I)). destruct r0 as [|a r0]; [discriminate|]. cbn [dot tl] in *. rewrite <- Zs. ring.
        * rewrite map_length. exact Le.
      + exfalso. cbn [Nat.add] in Le. clear G2.
        assert (Found : exists piv rest R', In piv m /\ R = piv :: R' /\ sub R' rest /\ (hd 0 piv mod p =? 0)%Z = false /\ regular w (map (eliminate piv) rest) = true /\ Forall (fun r => length r = S w) rest).
        { clear Zs. induction Sb as [|r R m Sb IHs|r R m Sb _].
          - cbn in Le. lia.
          - inversion W; subst. cbn [rows_ok] in G1. apply andb_true_iff in G1. destruct G1 as [_ G1]. destruct (IHs G1 ltac:(assumption) Le) as (a & b & c & I & Q). exists a, b, c. split; [now right|exact Q].
          - inversion W; subst. cbn [rows_ok] in G1. rewrite !andb_true_iff in G1. destruct G1 as [[Ga Gb] _]. exists r, m, R. split; [now left|]. repeat split; auto. now apply negb_true_iff. }
        destruct Found as (piv & rest & R' & Ip & -> & Sr & Hh & Gr & Wr). pose proof (Forall_inv Zs) as Zp. pose proof (Forall_inv_tail Zs) as Zr. cbv beta in Zp.
        assert (Lp : length piv = S w) by (rewrite Forall_forall in W; auto). destruct piv as [|a piv]; [discriminate|]. injection Lp as Lp. cbn [dot] in Zp. cbn [hd] in Hh.
        assert (W0 : weight x = 0%nat).
        { apply (IH _ Gr) with (R := map (eliminate (a :: piv)) R'); auto.
          - apply Forall_forall. intros r Hr. apply in_map_iff in Hr. destruct Hr as (r0 & <- & I). rewrite Forall_forall in Wr. specialize (Wr _ I). destruct r0; [discriminate|]. unfold eliminate. cbn in *. rewrite zip2_length. lia.
          - now apply sub_map.
          - apply Forall_forall. intros r Hr. apply in_map_iff in Hr. destruct Hr as (r0 & <- & I). rewrite Forall_forall in Zr, Wr. specialize (Zr _ I). specialize (Wr _ (sub_in _ _ _ Sr I)). destruct r0 as [|b r0]; [discriminate|].
            unfold eliminate. cbn [hd tl]. rewrite dot_zip by (cbn in *; lia). cbn [dot] in Zr.
            transitivity (inj a * (inj b * y + dot r0 x) - inj b * (inj a * y + dot piv x)); [ring|]. rewrite Zr, Zp. ring.
          - rewrite map_length. cbn [length] in Le. lia. }
        rewrite (weight_zero x piv W0) in Zp. assert (K : inj a * y = 0) by (rewrite <- Zp; ring). apply (fzero_mul F) in K. destruct K as [K|K]; [|exact (Ny K)].
        change (0 : F) with (inj 0%Z) in K. apply inj_eq in K. pose proof pgt. rewrite Z.mod_0_l in K by lia. apply Z.eqb_neq in Hh. exact (Hh K).
  Qed.
  Lemma dot_fsum : forall r x, length r = length x -> fsum (length x) (fun j => nth j (map inj r) 0 * nth j x 0) = dot r x.
  Proof.
    induction r as [|a r IH]; intros [|y x] L; try discriminate; [reflexivity|]. cbn [length]. rewrite fsum_S_first. cbn [map nth dot]. injection L as L. rewrite (IH x L). reflexivity.
  Qed.
  (* the rows whose product is zero *)
  Lemma zero_rows (x : list F) : forall m, exists R, sub R m /\ Forall (fun r => dot r x = 0) R /\ (length R + weight (map (fun r => dot r x) m) = length m)%nat.
  Proof.
    induction m as [|r m (R & S1 & Z & L)]; [exists []; repeat split; constructor|]. cbn [map weight]. destruct (feqb_spec (dot r x) 0) as [E|E].
    - exists (r :: R). split; [now apply sub_take|]. split; [now constructor|]. cbn [length]. lia.
    - exists R. split; [now apply sub_skip|]. split; [exact Z|]. cbn [length]. lia.
  Qed.
  Theorem separable_ok n m : regular n m = true -> length m = n -> Forall (fun r => length r = n) m -> separable n (map (map inj) m).
  Proof.
    intros G Lm W x Lx Nz. unfold apply_matrix. rewrite map_map.
    rewrite (map_ext_in _ (fun r => dot r x)) by (intros r Hr; rewrite Forall_forall in W; apply dot_fsum; rewrite Lx; auto).
    destruct (zero_rows x m) as (R & S1 & Z & L). destruct (Nat.le_gt_cases (weight x) (length R)) as [Le|Gt]; [|lia].
    exfalso. apply Nz. exact (regular_ok n m G W x R Lx S1 Z Le).
  Qed.
End Prime.
